(** * Proofs about the calls taken out of expressions (ShCall) *)
From Coq Require Import ZArith List Lia Bool.
From Verif Require Import ShCall.
Import ListNotations.

Ltac br := repeat match goal with
  | H : (_ && _)%bool = true |- _ => apply andb_prop in H; destruct H
  | H : (_ || _)%bool = false |- _ => apply orb_false_elim in H; destruct H
  | H : negb _ = true |- _ => apply negb_true_iff in H
  | H : negb _ = false |- _ => apply negb_false_iff in H
  end.

(** ** The grammar of shell lists has one reading *)
Section Unique.
Variables L X U O R Fn : Type.
Notation tok := (tok L X U O R Fn).
Notation elem := (elem L X U O R Fn).
Notation andor := (andor L X U O R Fn).
Notation clist := (clist L X U O R Fn).
Notation gelem := (gelem L X U O R Fn).
Notation gandor := (gandor L X U O R Fn).
Notation gclist := (gclist L X U O R Fn).
Definition nolg (k : list tok) : Prop := match k with KLog _ :: _ => False | _ => True end.
Definition endm (k : list tok) : Prop := match k with [] => True | KSemi :: KClose :: _ => True | _ => False end.
Inductive PE : list tok -> elem -> list tok -> Prop :=
| PE_s s k : PE (KSimple s :: k) (ESimple s) k
| PE_g t c k : PC t c (KSemi :: KClose :: k) -> PE (KOpen :: t) (EGroup c) k
with PA : list tok -> andor -> list tok -> Prop :=
| PA_i t e k1 a k : PE t e k1 -> PL (AOne e) k1 a k -> PA t a k
with PL : andor -> list tok -> andor -> list tok -> Prop :=
| PL_stop a k : nolg k -> PL a k a k
| PL_go a o k e k1 a2 k2 : PE k e k1 -> PL (ALog a o e) k1 a2 k2 -> PL a (KLog o :: k) a2 k2
with PC : list tok -> clist -> list tok -> Prop :=
| PC_i t a k1 c k : PA t a k1 -> PM (LOne a) k1 c k -> PC t c k
with PM : clist -> list tok -> clist -> list tok -> Prop :=
| PM_stop c k : endm k -> PM c k c k
| PM_go c k a k1 c2 k2 : PA k a k1 -> PM (LSeq c a) k1 c2 k2 -> PM c (KSemi :: k) c2 k2.
Scheme PE_i2 := Induction for PE Sort Prop with PA_i2 := Induction for PA Sort Prop
with PL_i2 := Induction for PL Sort Prop with PC_i2 := Induction for PC Sort Prop with PM_i2 := Induction for PM Sort Prop.
Combined Scheme P_ind from PE_i2, PA_i2, PL_i2, PC_i2, PM_i2.
Lemma P_det :
  (forall t e k, PE t e k -> forall e' k', PE t e' k' -> e = e' /\ k = k') /\
  (forall t e k, PA t e k -> forall e' k', PA t e' k' -> e = e' /\ k = k') /\
  (forall a t e k, PL a t e k -> forall e' k', PL a t e' k' -> e = e' /\ k = k') /\
  (forall t e k, PC t e k -> forall e' k', PC t e' k' -> e = e' /\ k = k') /\
  (forall a t e k, PM a t e k -> forall e' k', PM a t e' k' -> e = e' /\ k = k').
Proof.
  apply P_ind.
  - intros s k e' k' H; inversion H; subst; auto.
  - intros t c k H IH e' k' H'; inversion H' as [|t0 c0 k0 H1]; subst. destruct (IH _ _ H1) as [-> E]. injection E as ->. auto.
  - intros t e k1 a k H IH H2 IH2 e' k' H'; inversion H' as [t0 e0 k0 a0 k3 HE HL]; subst.
    destruct (IH _ _ HE) as [-> ->]. apply IH2; assumption.
  - intros a k H e' k' H'; inversion H'; subst; [auto|contradiction H].
  - intros a o k e k1 a2 k2 H IH H2 IH2 e' k' H'; inversion H' as [? ? HN|a0 o0 k0 e0 k3 a3 k4 HE HL]; subst; [contradiction HN|].
    destruct (IH _ _ HE) as [-> ->]. apply IH2; assumption.
  - intros t e k1 a k H IH H2 IH2 e' k' H'; inversion H' as [t0 e0 k0 a0 k3 HE HL]; subst.
    destruct (IH _ _ HE) as [-> ->]. apply IH2; assumption.
  - intros a k H e' k' H'; inversion H' as [|c0 k0 a0 k1 c2 k2 HA HM]; subst; [auto|].
    exfalso. destruct k0 as [|[] ?]; try contradiction H. inversion HA as [t0 e0 k5 a5 k6 HE HL]; subst. inversion HE.
  - intros c k a k1 c2 k2 H IH H2 IH2 e' k' H'; inversion H' as [? ? HN|c0 k0 a0 k3 c3 k4 HA HM]; subst.
    + exfalso. destruct k as [|[] ?]; try contradiction HN. inversion H as [t0 e0 k5 a5 k6 HE HL]; subst. inversion HE.
    + destruct (IH _ _ HA) as [-> ->]. apply IH2; assumption.
Qed.
Lemma P_complete :
  (forall t e, gelem t e -> forall k, PE (t ++ k) e k) /\
  (forall t a, gandor t a -> forall k a' k', PL a k a' k' -> PA (t ++ k) a' k') /\
  (forall t c, gclist t c -> forall k c' k', nolg k -> PM c k c' k' -> PC (t ++ k) c' k').
Proof.
  apply gr_ind.
  - intros s k. constructor.
  - intros t c H IH k. cbn [app]. constructor. rewrite <- app_assoc. apply IH; [exact I|]. constructor. exact I.
  - intros t e H IH k a' k' HL. econstructor; [apply IH|exact HL].
  - intros t a o u e H IH H2 IH2 k a' k' HL. rewrite <- app_assoc. apply IH. cbn [app]. econstructor; [apply IH2|exact HL].
  - intros t a H IH k c' k' HN HM. econstructor; [apply IH; apply PL_stop; exact HN|exact HM].
  - intros t c u a H IH H2 IH2 k c' k' HN HM. rewrite <- app_assoc. apply IH; [exact I|]. cbn [app].
    econstructor; [apply IH2; apply PL_stop; exact HN|exact HM].
Qed.
Theorem clist_unique t c c' : gclist t c -> gclist t c' -> c = c'.
Proof.
  intros H H'. destruct P_complete as [_ [_ HC]]. destruct P_det as [_ [_ [_ [HD _]]]].
  pose proof (HC _ _ H [] c [] I (PM_stop c [] I)) as A. pose proof (HC _ _ H' [] c' [] I (PM_stop c' [] I)) as B.
  destruct (HD _ _ _ A _ _ B) as [E _]. exact E.
Qed.
End Unique.

(** ** The traversal, seen as a relation *)
Section Hr.
Variables L X U O R Fn : Type.
Variable upure : U -> bool.
Variable opure : O -> bool.
Notation ex := (ex L X U O R Fn).
Notation exs := (exs L X U O R Fn).
Notation rx := (rx L X U O R Fn).
Notation rxs := (rxs L X U O R Fn).
Notation cls := (cls L X U O R Fn).
Notation capp := (capp L X U O R Fn).
Notation snoc := (snoc L X U O R Fn).
Notation handle := (handle L X U O R Fn).
Notation handles := (handles L X U O R Fn).
Notation calls := (calls L X U O R Fn).
Notation callss := (callss L X U O R Fn).
Notation effs := (effs L X U O R Fn upure opure).
Notation effss := (effss L X U O R Fn upure opure).
Notation asgs := (asgs L X U O R Fn).
Notation asgss := (asgss L X U O R Fn).
Notation conds := (conds L X U O R Fn).
Notation condss := (condss L X U O R Fn).
Notation value := (value L X U O R Fn upure opure).
Notation valuel := (valuel L X U O R Fn upure opure).
Notation arith_ok := (arith_ok L X U O R Fn).
Notation nolog := (nolog L X U O R Fn).
Notation args_ok := (args_ok L X U O R Fn).
Notation calls_ok := (calls_ok L X U O R Fn).

Definition iscl (e : ex) : bool := match e with ECl _ _ => true | _ => false end.
Inductive hr : ex -> nat -> rx -> cls -> nat -> Prop :=
| H_vl v n : hr (EVl v) n (RVl v) Cnil n
| H_lf l n : hr (ELf l) n (RLf l) Cnil n
| H_vr x n : hr (EVr x) n (RVr x) Cnil n
| H_un u a n r cs n' : hr a n r cs n' -> hr (EUn u a) n (RUn u r) cs n'
| H_bn o a b n ra ca n1 rb cb n2 : hr a n ra ca n1 -> hr b n1 rb cb n2 -> hr (EBn o a b) n (RBn o ra rb) (capp ca cb) n2
| H_cp o a b n ra ca n1 rb cb n2 : hr a n ra ca n1 -> hr b n1 rb cb n2 -> hr (ECp o a b) n (RCp o ra rb) (capp ca cb) n2
| H_cm a b n ra ca n1 rb cb n2 : hr a n ra ca n1 -> hr b n1 rb cb n2 -> hr (ECm a b) n (RCm ra rb) (capp ca cb) n2
| H_as x a n r cs n' : iscl a = false -> hr a n r cs n' -> hr (EAs x a) n (RAs x r) cs n'
| H_ac x f l n rs cs n' : hrs l n rs cs n' -> hr (EAs x (ECl f l)) n (RRv x) (snoc cs (TVr x) f rs) n
| H_lg o a b n ra la n1 rb lb n2 : hr a n ra la n1 -> hr b n rb lb n2 -> hr (ELg o a b) n (RLg o ra rb la lb) Cnil n
| H_cd c a b n ra n1 rb n2 rc cc n3 : hr a n ra Cnil n1 -> hr b n1 rb Cnil n2 -> hr c n2 rc cc n3 ->
    hr (ECd c a b) n (RCd rc ra rb) cc n3
| H_ca a n r cs n' : hr a n r cs n' -> hr (ECa a) n (RCa r) cs n'
| H_pl a n r cs n' : hr a n r cs n' -> hr (EPl a) n (RPl r) cs n'
| H_pa a n r cs n' : hr a n r cs n' -> hr (EPa a) n (RPa r) cs n'
| H_cl f l n rs cs n' : hrs l n rs cs n' -> hr (ECl f l) n (RTm (S n)) (snoc cs (TTm (S n)) f rs) (S n)
with hrs : exs -> nat -> rxs -> cls -> nat -> Prop :=
| H_nil n : hrs Enil n Rnil Cnil n
| H_cons a l n r ca n1 rs cs n2 : hr a n r ca n1 -> hrs l n1 rs cs n2 -> hrs (Econs a l) n (Rcons r rs) (capp ca cs) n2.
Scheme hr_i2 := Induction for hr Sort Prop with hrs_i2 := Induction for hrs Sort Prop.
Combined Scheme hr_hrs_ind from hr_i2, hrs_i2.

Lemma capp_nil (c : cls) : capp c Cnil = c.
Proof. induction c; cbn [ShCall.capp]; congruence. Qed.
Lemma capp_assoc (a b c : cls) : capp a (capp b c) = capp (capp a b) c.
Proof. induction a; cbn [ShCall.capp]; congruence. Qed.
Lemma snoc_capp (c d : cls) t f a : snoc (capp c d) t f a = capp c (snoc d t f a).
Proof. induction c; cbn [ShCall.capp ShCall.snoc]; congruence. Qed.
Lemma capp_nil_inv (c d : cls) : capp c d = Cnil -> c = Cnil /\ d = Cnil.
Proof. destruct c; cbn; [auto|discriminate]. Qed.
Lemma snoc_not_nil (c : cls) t f a : snoc c t f a <> Cnil.
Proof. destruct c; cbn; discriminate. Qed.
Lemma calls_ok_capp (c d : cls) : calls_ok (capp c d) = (calls_ok c && calls_ok d)%bool.
Proof. induction c; cbn [ShCall.capp ShCall.calls_ok]; [reflexivity|]. rewrite IHc. apply andb_assoc. Qed.
Lemma calls_ok_snoc (c : cls) t f a : calls_ok (snoc c t f a) = (calls_ok c && args_ok a)%bool.
Proof. induction c; cbn [ShCall.snoc ShCall.calls_ok]; [apply andb_comm|]. rewrite IHc. apply andb_assoc. Qed.

Lemma nocalls : (forall e n r cs n', hr e n r cs n' -> calls e = false -> cs = Cnil) /\
  (forall l n rs cs n', hrs l n rs cs n' -> callss l = false -> cs = Cnil).
Proof.
  apply hr_hrs_ind; intros; cbn [ShCall.calls ShCall.callss] in *; br; try discriminate; auto;
    repeat match goal with H : ?P -> _ = Cnil, H' : ?P |- _ => specialize (H H'); subst end; auto.
Qed.
Lemma yescalls : (forall e n r cs n', hr e n r cs n' -> arith_ok r = true -> cs = Cnil -> calls e = false) /\
  (forall l n rs cs n', hrs l n rs cs n' -> args_ok rs = true -> cs = Cnil -> callss l = false).
Proof.
  assert (HN : forall r : rx, nolog r = true -> arith_ok r = true).
  { induction r; cbn [ShCall.nolog ShCall.arith_ok]; intros; br; try discriminate; auto;
      repeat (apply andb_true_intro; split); auto. }
  assert (HZ : forall (e : ex) n r n', hr e n r Cnil n' -> True) by auto.
  apply hr_hrs_ind; intros; cbn [ShCall.calls ShCall.callss ShCall.arith_ok ShCall.args_ok] in *; br; auto;
    try (apply capp_nil_inv in H2; destruct H2; subst; rewrite H by auto; apply H0; auto);
    try (apply snoc_not_nil in H1; contradiction).
  subst. rewrite H, H0, H1 by auto. reflexivity.
Qed.

(* handle_side_effects_go follows the relation when no call is lost *)
Definition holds (e : ex) : Prop := forall flag g r g', handle e flag g = Some (r, g') -> value flag e = true ->
  (flag = true -> conds e = true -> cond _ _ _ _ _ _ g = Cnil) ->
  exists cs, hr e (gix _ _ _ _ _ _ g) r cs (gix _ _ _ _ _ _ g') /\
   (if flag then repl _ _ _ _ _ _ g' = repl _ _ _ _ _ _ g /\ cond _ _ _ _ _ _ g' = capp (cond _ _ _ _ _ _ g) cs
    else repl _ _ _ _ _ _ g' = capp (repl _ _ _ _ _ _ g) cs).
Definition holdss (l : exs) : Prop := forall flag g r g', handles l flag g = Some (r, g') -> valuel flag l = true ->
  (flag = true -> condss l = true -> cond _ _ _ _ _ _ g = Cnil) ->
  exists cs, hrs l (gix _ _ _ _ _ _ g) r cs (gix _ _ _ _ _ _ g') /\
   (if flag then repl _ _ _ _ _ _ g' = repl _ _ _ _ _ _ g /\ cond _ _ _ _ _ _ g' = capp (cond _ _ _ _ _ _ g) cs
    else repl _ _ _ _ _ _ g' = capp (repl _ _ _ _ _ _ g) cs).
Lemma handle_as x a flag g : iscl a = false ->
  handle (EAs x a) flag g = match handle a flag g with Some (r, g1) => Some (RAs x r, g1) | None => None end.
Proof. destruct a; intros H; try discriminate H; reflexivity. Qed.
Lemma handle_ac x f l flag g : handle (EAs x (ECl f l)) flag g = match handles l flag g with
  | Some (rs, g1) => Some (RRv x, push _ _ _ _ _ _ flag (TVr x) f rs (setg _ _ _ _ _ _ (gix _ _ _ _ _ _ g) g1)) | None => None end.
Proof. reflexivity. Qed.
Lemma handle_cl f l flag g : handle (ECl f l) flag g = match handles l flag g with
  | Some (rs, g1) => Some (RTm (S (gix _ _ _ _ _ _ g)), push _ _ _ _ _ _ flag (TTm (S (gix _ _ _ _ _ _ g))) f rs (setg _ _ _ _ _ _ (S (gix _ _ _ _ _ _ g)) g1)) | None => None end.
Proof. reflexivity. Qed.
Lemma handles_cons a l flag g : handles (Econs a l) flag g = match handle a flag g with
  | Some (r, g1) => match handles l flag g1 with Some (rs, g2) => Some (Rcons r rs, g2) | None => None end | None => None end.
Proof. reflexivity. Qed.
Lemma value_cl c f l : value c (ECl f l) = (valuel c l && negb (asgss l && effss l))%bool.
Proof. reflexivity. Qed.
Lemma valuel_cons c a l : valuel c (Econs a l) = (value c a && valuel c l && negb (asgs a && callss l) && negb (c && calls a && condss l))%bool.
Proof. reflexivity. Qed.
Lemma condss_cons a l : condss (Econs a l) = (conds a || condss l)%bool.
Proof. reflexivity. Qed.
(* two operands in sequence *)
Lemma seq2 a b flag g ra g1 rb g2 (K : rx -> rx -> rx) (E : ex) :
  holds a -> holds b -> handle a flag g = Some (ra, g1) -> handle b flag g1 = Some (rb, g2) ->
  value flag a = true -> value flag b = true -> (flag && calls a && conds b)%bool = false ->
  (flag = true -> (conds a || conds b)%bool = true -> cond _ _ _ _ _ _ g = Cnil) ->
  exists ca cb, hr a (gix _ _ _ _ _ _ g) ra ca (gix _ _ _ _ _ _ g1) /\ hr b (gix _ _ _ _ _ _ g1) rb cb (gix _ _ _ _ _ _ g2) /\
   (if flag then repl _ _ _ _ _ _ g2 = repl _ _ _ _ _ _ g /\ cond _ _ _ _ _ _ g2 = capp (cond _ _ _ _ _ _ g) (capp ca cb)
    else repl _ _ _ _ _ _ g2 = capp (repl _ _ _ _ _ _ g) (capp ca cb)).
Proof.
  intros Ha Hb E1 E2 Va Vb HT HC.
  destruct (Ha flag g ra g1 E1 Va) as [ca [A1 A2]]. { intros F G. apply HC; [exact F|]. rewrite G. reflexivity. }
  destruct (Hb flag g1 rb g2 E2 Vb) as [cb [B1 B2]].
  { intros F G. subst flag. destruct A2 as [_ A2]. rewrite A2.
    rewrite G, andb_true_r in HT. cbn [andb] in HT. rewrite (proj1 nocalls _ _ _ _ _ A1 HT), capp_nil.
    apply HC; [reflexivity|]. rewrite G. apply orb_true_r. }
  exists ca, cb. split; [exact A1|]. split; [exact B1|]. destruct flag.
  - destruct A2, B2. split; [congruence|]. rewrite capp_assoc. congruence.
  - rewrite capp_assoc. congruence.
Qed.
Lemma handle_hr : (forall e, holds e /\ match e with ECl _ l => holdss l | _ => True end) /\ (forall l, holdss l).
Proof.
  apply ex_exs_ind.
  - intros v. split; [|exact I]. intros flag g r g' E V HC. injection E as <- <-. exists Cnil. split; [constructor|].
    rewrite capp_nil. destruct flag; rewrite ?capp_nil; auto.
  - intros v. split; [|exact I]. intros flag g r g' E V HC. injection E as <- <-. exists Cnil. split; [constructor|].
    destruct flag; rewrite ?capp_nil; auto.
  - intros v. split; [|exact I]. intros flag g r g' E V HC. injection E as <- <-. exists Cnil. split; [constructor|].
    destruct flag; rewrite ?capp_nil; auto.
  - intros u a [IH _]. split; [|exact I]. intros flag g r g' E V HC. cbn [ShCall.handle] in E.
    destruct (handle a flag g) as [[ra g1]|] eqn:EA; [|discriminate]. injection E as <- <-.
    destruct (IH flag g ra g1 EA V HC) as [cs [A B]]. exists cs. split; [constructor; exact A|exact B].
  - intros o a [IHa _] b [IHb _]. split; [|exact I]. intros flag g r g' E V HC. cbn [ShCall.handle ShCall.value] in E, V.
    destruct (handle a flag g) as [[ra g1]|] eqn:EA; [|discriminate].
    destruct (handle b flag g1) as [[rb g2]|] eqn:EB; [|discriminate]. injection E as <- <-. unfold two in V. br.
    destruct (seq2 a b flag g ra g1 rb g2 (RBn o) a IHa IHb EA EB) as [ca [cb [A [B C]]]]; auto.
    exists (capp ca cb). split; [econstructor; eassumption|exact C].
  - intros o a [IHa _] b [IHb _]. split; [|exact I]. intros flag g r g' E V HC. cbn [ShCall.handle ShCall.value] in E, V.
    destruct (handle a flag g) as [[ra g1]|] eqn:EA; [|discriminate].
    destruct (handle b flag g1) as [[rb g2]|] eqn:EB; [|discriminate]. injection E as <- <-. unfold two in V. br.
    destruct (seq2 a b flag g ra g1 rb g2 (RCp o) a IHa IHb EA EB) as [ca [cb [A [B C]]]]; auto.
    exists (capp ca cb). split; [econstructor; eassumption|exact C].
  - intros a [IHa _] b [IHb _]. split; [|exact I]. intros flag g r g' E V HC. cbn [ShCall.handle ShCall.value] in E, V.
    destruct (handle a flag g) as [[ra g1]|] eqn:EA; [|discriminate].
    destruct (handle b flag g1) as [[rb g2]|] eqn:EB; [|discriminate]. injection E as <- <-. unfold two in V. br.
    destruct (seq2 a b flag g ra g1 rb g2 RCm a IHa IHb EA EB) as [ca [cb [A [B C]]]]; auto.
    exists (capp ca cb). split; [econstructor; eassumption|exact C].
  - intros x a [IH IH2]. split; [|exact I]. intros flag g r g' E V HC. destruct (iscl a) eqn:IC.
    + destruct a as [| | | | | | | | | | | | |f l]; try discriminate IC. rewrite handle_ac in E.
      destruct (handles l flag g) as [[rs g1]|] eqn:EA; [|discriminate]. injection E as <- <-.
      change (value flag (ECl f l) = true) in V. rewrite value_cl in V. br.
      destruct (IH2 flag g rs g1 EA H HC) as [cs [A B]]. exists (snoc cs (TVr x) f rs).
      split; [unfold push, setg; destruct flag; cbn [gix]; econstructor; exact A|].
      unfold push, setg. destruct flag; cbn [repl cond].
      * destruct B as [B1 B2]. split; [exact B1|]. rewrite B2. apply snoc_capp.
      * rewrite B. apply snoc_capp.
    + rewrite handle_as in E by exact IC.
      destruct (handle a flag g) as [[ra g1]|] eqn:EA; [|discriminate]. injection E as <- <-.
      assert (V' : value flag a = true) by exact V.
      destruct (IH flag g ra g1 EA V' HC) as [cs [A B]]. exists cs. split; [constructor; [exact IC|exact A]|exact B].
  - intros o a [IHa _] b [IHb _]. split; [|exact I]. intros flag g r g' E V HC. cbn [ShCall.handle ShCall.value] in E, V. br.
    destruct (handle a true _) as [[ra g1]|] eqn:EA; [|discriminate].
    destruct (handle b true _) as [[rb g2]|] eqn:EB; [|discriminate]. injection E as <- <-.
    destruct (IHa true _ ra g1 EA H) as [ca [A1 [A2 A3]]]; [reflexivity|].
    destruct (IHb true _ rb g2 EB H0) as [cb [B1 [B2 B3]]]; [reflexivity|].
    unfold setc, setg in *. cbn [gix repl cond ShCall.capp] in *. subst ca cb. exists Cnil. split; [econstructor; eassumption|].
    rewrite ?capp_nil. destruct flag; rewrite ?capp_nil; [split|]; congruence.
  - intros c [IHc _] a [IHa _] b [IHb _]. split; [|exact I]. intros flag g r g' E V HC. cbn [ShCall.handle ShCall.value] in E, V. br.
    destruct (handle a true _) as [[ra g1]|] eqn:EA; [|discriminate].
    destruct (handle b true _) as [[rb g2]|] eqn:EB; [|discriminate].
    destruct (cond _ _ _ _ _ _ g1) eqn:C1; [|discriminate]. destruct (cond _ _ _ _ _ _ g2) eqn:C2; [|discriminate].
    destruct (handle c flag g2) as [[rc g3]|] eqn:EC; [|discriminate]. injection E as <- <-.
    destruct (IHa true _ ra g1 EA H1) as [ca [A1 [A2 A3]]]; [reflexivity|].
    destruct (IHb true _ rb g2 EB H0) as [cb [B1 [B2 B3]]]; [reflexivity|].
    destruct (IHc flag g2 rc g3 EC H) as [cc [D1 D2]]; [intros; exact C2|].
    unfold setc in *. cbn [gix repl cond ShCall.capp] in *. rewrite C1 in A3. rewrite C2 in B3. subst ca cb.
    exists cc. split; [econstructor; eassumption|]. destruct flag.
    + destruct D2 as [D2 D3]. split; [congruence|]. rewrite D3, C2, HC; reflexivity.
    + congruence.
  - intros a [IH _]. split; [|exact I]. intros flag g r g' E V HC. cbn [ShCall.handle] in E.
    destruct (handle a flag g) as [[ra g1]|] eqn:EA; [|discriminate]. injection E as <- <-.
    destruct (IH flag g ra g1 EA V HC) as [cs [A B]]. exists cs. split; [constructor; exact A|exact B].
  - intros a [IH _]. split; [|exact I]. intros flag g r g' E V HC. cbn [ShCall.handle] in E.
    destruct (handle a flag g) as [[ra g1]|] eqn:EA; [|discriminate]. injection E as <- <-.
    destruct (IH flag g ra g1 EA V HC) as [cs [A B]]. exists cs. split; [constructor; exact A|exact B].
  - intros a [IH _]. split; [|exact I]. intros flag g r g' E V HC. cbn [ShCall.handle] in E.
    destruct (handle a flag g) as [[ra g1]|] eqn:EA; [|discriminate]. injection E as <- <-.
    destruct (IH flag g ra g1 EA V HC) as [cs [A B]]. exists cs. split; [constructor; exact A|exact B].
  - intros f l IH. split; [|exact IH]. intros flag g r g' E V HC. rewrite handle_cl in E.
    destruct (handles l flag g) as [[rs g1]|] eqn:EA; [|discriminate]. injection E as <- <-.
    rewrite value_cl in V. br.
    destruct (IH flag g rs g1 EA H HC) as [cs [A B]]. exists (snoc cs (TTm (S (gix _ _ _ _ _ _ g))) f rs).
    split; [unfold push, setg; destruct flag; cbn [gix]; econstructor; exact A|].
    unfold push, setg. destruct flag; cbn [repl cond].
    + destruct B as [B1 B2]. split; [exact B1|]. rewrite B2. apply snoc_capp.
    + rewrite B. apply snoc_capp.
  - intros flag g r g' E V HC. injection E as <- <-. exists Cnil. split; [constructor|]. destruct flag; rewrite ?capp_nil; auto.
  - intros a [IHa _] l IHl flag g r g' E V HC. rewrite handles_cons in E. rewrite valuel_cons in V. rewrite condss_cons in HC.
    destruct (handle a flag g) as [[ra g1]|] eqn:EA; [|discriminate].
    destruct (handles l flag g1) as [[rs g2]|] eqn:EB; [|discriminate]. injection E as <- <-. br.
    destruct (IHa flag g ra g1 EA H) as [ca [A1 A2]]. { intros F G. apply HC; [exact F|]. rewrite G. reflexivity. }
    destruct (IHl flag g1 rs g2 EB H2) as [cb [B1 B2]].
    { intros F G. subst flag. destruct A2 as [_ A2]. rewrite A2.
      rewrite G, andb_true_r in H0. cbn [andb] in H0. rewrite (proj1 nocalls _ _ _ _ _ A1 H0), capp_nil.
      apply HC; [reflexivity|]. rewrite G. apply orb_true_r. }
    exists (capp ca cb). split; [econstructor; eassumption|]. destruct flag.
    + destruct A2, B2. split; [congruence|]. rewrite capp_assoc. congruence.
    + rewrite capp_assoc. congruence.
Qed.
End Hr.

(** ** What the calls and what is left compute *)
Section Sem.
Variables L X U O R Fn St : Type.
Variable upure : U -> bool.
Variable opure : O -> bool.
Variable rd : L -> St -> Z.
Variable rdv : X -> St -> Z.
Variable setx : X -> Z -> St -> St.
Variable un : U -> Z -> St -> Z * St.
Variable bn : O -> Z -> Z -> St -> Z * St.
Variable cmp : R -> Z -> Z -> bool.
Variable call : Fn -> list Z -> St -> Z -> St -> Prop.
Hypothesis get_set : forall x v s, rdv x (setx x v s) = v.
Hypothesis un_pure : forall u v s, upure u = true -> snd (un u v s) = s.
Hypothesis bn_pure : forall o v w s, opure o = true -> snd (bn o v w s) = s.
Notation ex := (ex L X U O R Fn).
Notation exs := (exs L X U O R Fn).
Notation rx := (rx L X U O R Fn).
Notation rxs := (rxs L X U O R Fn).
Notation cls := (cls L X U O R Fn).
Notation capp := (capp L X U O R Fn).
Notation snoc := (snoc L X U O R Fn).
Notation calls := (calls L X U O R Fn).
Notation callss := (callss L X U O R Fn).
Notation effs := (effs L X U O R Fn upure opure).
Notation effss := (effss L X U O R Fn upure opure).
Notation asgs := (asgs L X U O R Fn).
Notation asgss := (asgss L X U O R Fn).
Notation value := (value L X U O R Fn upure opure).
Notation valuel := (valuel L X U O R Fn upure opure).
Notation arith_ok := (arith_ok L X U O R Fn).
Notation nolog := (nolog L X U O R Fn).
Notation args_ok := (args_ok L X U O R Fn).
Notation calls_ok := (calls_ok L X U O R Fn).
Notation hr := (hr L X U O R Fn).
Notation hrs := (hrs L X U O R Fn).
Notation reval := (reval L X U O R Fn St rd rdv setx un bn cmp).
Notation revals := (revals L X U O R Fn St rd rdv setx un bn cmp).
Notation rsimple := (rsimple L X U O R Fn St rd rdv setx un bn cmp call).
Notation rcalls := (rcalls L X U O R Fn St rd rdv setx un bn cmp call).
Notation step := (step L X U O R Fn St rd rdv setx un bn cmp call).
Notation steps1 := (steps1 L X U O R Fn St rd rdv setx un bn cmp call).
Notation star := (star L X U O R Fn St rd rdv setx un bn cmp call).
Notation values := (values L X U O R Fn).

(* no effect, and reads a variable that received the result of a call *)
Fixpoint rpure (r : rx) : bool :=
  match r with
  | RUn u a => upure u && rpure a
  | RAs _ _ => false
  | RCa a | RPl a | RPa a => rpure a
  | RBn o a b => opure o && rpure a && rpure b
  | RCp _ a b | RCm a b | RLg _ a b _ _ => rpure a && rpure b
  | RCd c a b => rpure c && rpure a && rpure b
  | _ => true
  end.
Fixpoint rpures (l : rxs) : bool := match l with Rnil => true | Rcons a l => rpure a && rpures l end.
Fixpoint rv (r : rx) : bool :=
  match r with
  | RRv _ => true
  | RUn _ a | RAs _ a | RCa a | RPl a | RPa a => rv a
  | RBn _ a b | RCp _ a b | RCm a b | RLg _ a b _ _ => rv a || rv b
  | RCd c a b => rv c || rv a || rv b
  | _ => false
  end.
Fixpoint rvs (l : rxs) : bool := match l with Rnil => false | Rcons a l => rv a || rvs l end.
Lemma rv_asgs : (forall e n r cs n', hr e n r cs n' -> rv r = asgs e) /\ (forall l n r cs n', hrs l n r cs n' -> rvs r = asgss l).
Proof.
  apply hr_hrs_ind; intros; cbn [ShCall.asgs ShCall.asgss rv rvs]; try congruence.
  - destruct a; try congruence; discriminate.
Qed.
Lemma pure_effs : (forall e n r cs n', hr e n r cs n' -> rpure r = negb (effs e)) /\ (forall l n r cs n', hrs l n r cs n' -> rpures r = negb (effss l)).
Proof.
  apply hr_hrs_ind; intros; cbn [ShCall.effs ShCall.effss rpure rpures]; rewrite ?negb_orb, ?negb_involutive; try congruence.
  all: try (match goal with IC : iscl _ _ _ _ _ _ ?a = false |- _ => destruct a; (reflexivity || discriminate) end).
  all: repeat match goal with E : rpure _ = _ |- _ => rewrite E; clear E | E : rpures _ = _ |- _ => rewrite E; clear E end; reflexivity.
Qed.
Lemma pure_state r : rpure r = true -> forall t s, snd (reval r t s) = s.
Proof.
  induction r as [v|l|x|x|k|u r IHr|o r1 IHr1 r2 IHr2|o r1 IHr1 r2 IHr2|r1 IHr1 r2 IHr2|x r IHr|isand r1 IHr1 r2 IHr2 la lb|r1 IHr1 r2 IHr2 r3 IHr3|r IHr|r IHr|r IHr]; cbn [rpure ShCall.reval]; intros P t s; br; try discriminate; auto.
  - specialize (IHr H0 t s). destruct (reval r t s) as [v s1]. cbn [snd] in IHr. subst s1. apply un_pure. exact H.
  - specialize (IHr1 H1 t s). destruct (reval r1 t s) as [v s1]. cbn [snd] in IHr1. subst s1.
    specialize (IHr2 H0 t s). destruct (reval r2 t s) as [w s2]. cbn [snd] in IHr2. subst s2. apply bn_pure. exact H.
  - specialize (IHr1 H t s). destruct (reval r1 t s) as [v s1]. cbn [snd] in IHr1. subst s1.
    specialize (IHr2 H0 t s). destruct (reval r2 t s) as [w s2]. exact IHr2.
  - specialize (IHr1 H t s). destruct (reval r1 t s) as [v s1]. cbn [snd] in IHr1. subst s1. auto.
  - specialize (IHr1 H t s). destruct (reval r1 t s) as [v s1]. cbn [snd] in IHr1. subst s1.
    destruct (Bool.eqb (nz v) isand); [|reflexivity].
    specialize (IHr2 H0 t s). destruct (reval r2 t s) as [w s2]. exact IHr2.
  - specialize (IHr1 H t s). destruct (reval r1 t s) as [v s1]. cbn [snd] in IHr1. subst s1. destruct (nz v); auto.
Qed.

(** *** [e] is what is left in C when [r] is what is left in the shell *)
Inductive RT (t : temps) (s : St) : rx -> ex -> Prop :=
| T_vl v : RT t s (RVl v) (EVl v)
| T_lf l : RT t s (RLf l) (ELf l)
| T_vr x : RT t s (RVr x) (EVr x)
| T_rv x : RT t s (RRv x) (EVl (rdv x s))
| T_tm k : RT t s (RTm k) (EVl (t k))
| T_un u a a' : RT t s a a' -> RT t s (RUn u a) (EUn u a')
| T_bn o a a' b b' : RT t s a a' -> RT t s b b' -> RT t s (RBn o a b) (EBn o a' b')
| T_cp o a a' b b' : RT t s a a' -> RT t s b b' -> RT t s (RCp o a b) (ECp o a' b')
| T_cm a a' b b' : RT t s a a' -> RT t s b b' -> RT t s (RCm a b) (ECm a' b')
| T_cm2 a b b' : rpure a = true -> RT t s b b' -> RT t s (RCm a b) b'
| T_as x a a' : RT t s a a' -> RT t s (RAs x a) (EAs x a')
| T_lg o a a' b b' : RT t s a a' -> RT t s b b' -> RT t s (RLg o a b Cnil Cnil) (ELg o a' b')
| T_cd c c' a a' b b' : RT t s c c' -> RT t s a a' -> RT t s b b' -> RT t s (RCd c a b) (ECd c' a' b')
| T_ca a a' : RT t s a a' -> RT t s (RCa a) (ECa a')
| T_pl a a' : RT t s a a' -> RT t s (RPl a) (EPl a')
| T_pa a a' : RT t s a a' -> RT t s (RPa a) (EPa a').
Inductive RTs (t : temps) (s : St) : rxs -> exs -> Prop :=
| T_nil : RTs t s Rnil Enil
| T_cons a a' l l' : RT t s a a' -> RTs t s l l' -> RTs t s (Rcons a l) (Econs a' l').

Inductive below (n : nat) : rx -> Prop :=     (* the temporaries read are at most n *)
| B_vl v : below n (RVl v) | B_lf l : below n (RLf l) | B_vr x : below n (RVr x) | B_rv x : below n (RRv x)
| B_tm k : k <= n -> below n (RTm k)
| B_un u a : below n a -> below n (RUn u a)
| B_bn o a b : below n a -> below n b -> below n (RBn o a b)
| B_cp o a b : below n a -> below n b -> below n (RCp o a b)
| B_cm a b : below n a -> below n b -> below n (RCm a b)
| B_as x a : below n a -> below n (RAs x a)
| B_lg o a b : below n a -> below n b -> below n (RLg o a b Cnil Cnil)
| B_cd c a b : below n c -> below n a -> below n b -> below n (RCd c a b)
| B_ca a : below n a -> below n (RCa a)
| B_pl a : below n a -> below n (RPl a)
| B_pa a : below n a -> below n (RPa a).
Lemma below_mono n m r : n <= m -> below n r -> below m r.
Proof. induction 2; constructor; auto; lia. Qed.
Lemma nolog_arith (r : rx) : nolog r = true -> arith_ok r = true.
Proof.
  induction r; cbn [ShCall.nolog ShCall.arith_ok]; intros; br; try discriminate; auto;
      repeat (apply andb_true_intro; split); auto.
Qed.
Lemma hr_mono : (forall e n r cs n', hr e n r cs n' -> n <= n') /\ (forall l n r cs n', hrs l n r cs n' -> n <= n').
Proof. apply hr_hrs_ind; intros; lia. Qed.
Lemma lg_nil o a b (la lb : cls) : arith_ok (RLg o a b la lb) = true ->
  la = Cnil /\ lb = Cnil /\ arith_ok a = true /\ arith_ok b = true.
Proof. destruct la, lb; cbn [ShCall.arith_ok]; intros; try discriminate; br; auto. Qed.
(* no temporary is left where there is no call *)
Lemma hr_below0 : (forall e n r cs n', hr e n r cs n' -> arith_ok r = true -> cs = Cnil -> below 0 r) /\
  (forall l n r cs n', hrs l n r cs n' -> True).
Proof.
  apply hr_hrs_ind; try (intros; exact I); intros; cbn [ShCall.arith_ok] in *; try (constructor; auto; fail); br.
  - apply capp_nil_inv in H2; destruct H2. constructor; auto.
  - apply capp_nil_inv in H2; destruct H2. constructor; auto.
  - apply capp_nil_inv in H2; destruct H2. constructor; auto.
  - change (arith_ok (RLg o ra rb la lb) = true) in H1. apply lg_nil in H1. destruct H1 as [-> [-> [P Q]]]. constructor; auto.
  - constructor; auto.
  - apply snoc_not_nil in H1. contradiction.
Qed.
Lemma hr_below : (forall e n r cs n', hr e n r cs n' -> arith_ok r = true -> below n' r) /\
  (forall l n r cs n', hrs l n r cs n' -> True).
Proof.
  apply hr_hrs_ind; try (intros; exact I); intros; cbn [ShCall.arith_ok] in *; try (constructor; auto; fail); br.
  - constructor; auto. apply (below_mono n1); [apply (proj1 hr_mono _ _ _ _ _ h0)|auto].
  - constructor; auto. apply (below_mono n1); [apply (proj1 hr_mono _ _ _ _ _ h0)|auto].
  - constructor; auto. apply (below_mono n1); [apply (proj1 hr_mono _ _ _ _ _ h0)|auto].
  - change (arith_ok (RLg o ra rb la lb) = true) in H1. apply lg_nil in H1. destruct H1 as [-> [-> [P Q]]].
    constructor; apply (below_mono 0); try lia; eapply (proj1 hr_below0); eauto.
  - pose proof (proj1 hr_mono _ _ _ _ _ h0). pose proof (proj1 hr_mono _ _ _ _ _ h1).
    constructor; [auto|apply (below_mono n1); [lia|auto]|apply (below_mono n2); [lia|auto]].
Qed.
(* the calls write temporaries above n only *)
Fixpoint above (n : nat) (c : cls) : Prop :=
  match c with Cnil => True | Ccons (TTm k) _ _ l => n < k /\ above n l | Ccons _ _ _ l => above n l end.
Lemma above_capp n c d : above n c -> above n d -> above n (capp c d).
Proof. induction c as [|[k|x] f a c IH]; cbn [above ShCall.capp]; tauto. Qed.
Lemma above_snoc n c t f a : above n c -> (match t with TTm k => n < k | _ => True end) -> above n (snoc c t f a).
Proof. induction c as [|[k|x] f0 a0 c IH]; cbn [above ShCall.snoc]; destruct t; tauto. Qed.
Lemma above_mono n m c : n <= m -> above m c -> above n c.
Proof. intros Hl. induction c as [|[k|x] f a c IH]; cbn [above]; intuition lia. Qed.
Lemma hr_above : (forall e n r cs n', hr e n r cs n' -> above n cs) /\ (forall l n r cs n', hrs l n r cs n' -> above n cs).
Proof.
  apply hr_hrs_ind; intros; auto; try exact I.
  - apply above_capp; [auto|]. apply (above_mono _ n1); auto. exact (proj1 hr_mono _ _ _ _ _ h).
  - apply above_capp; [auto|]. apply (above_mono _ n1); auto. exact (proj1 hr_mono _ _ _ _ _ h).
  - apply above_capp; [auto|]. apply (above_mono _ n1); auto. exact (proj1 hr_mono _ _ _ _ _ h).
  - apply above_snoc; auto.
  - apply (above_mono _ n2); auto. pose proof (proj1 hr_mono _ _ _ _ _ h). pose proof (proj1 hr_mono _ _ _ _ _ h0). lia.
  - apply above_snoc; auto.
  - apply above_capp; [auto|]. apply (above_mono _ n1); auto. exact (proj1 hr_mono _ _ _ _ _ h).
Qed.
Lemma rcalls_above c p q n : rcalls c p q -> above n c -> forall k, k <= n -> fst q k = fst p k.
Proof.
  induction 1; intros A j Hj; [reflexivity|]. cbn [above] in A.
  match goal with H : rsimple _ _ _ _ |- _ => inversion H; subst; cbn [fst] in * end.
  - destruct A as [A1 A2]. rewrite IHrcalls by auto. unfold sett. destruct (Nat.eqb_spec j k); [lia|reflexivity].
  - rewrite IHrcalls by auto. reflexivity.
Qed.
Lemma RT_move t s r e : RT t s r e -> forall n t' s', below n r -> (forall k, k <= n -> t' k = t k) ->
  (rv r = true -> s' = s) -> RT t' s' r e.
Proof.
  induction 1; intros n t1 s1 B HT HS; inversion B; subst; cbn [rv] in HS; try (constructor; eauto; fail);
    try (constructor; [eapply IHRT1|eapply IHRT2]; eauto; intros K; apply HS; rewrite K; rewrite ?orb_true_r; reflexivity).
  - rewrite <- HS by reflexivity. constructor.
  - rewrite <- HT by assumption. constructor.
  - apply T_cm2; [assumption|]. eapply IHRT; eauto. intros K; apply HS; rewrite K; apply orb_true_r.
  - constructor; [eapply IHRT1|eapply IHRT2|eapply IHRT3]; eauto; intros K; apply HS; rewrite K; rewrite ?orb_true_r; reflexivity.
Qed.
Lemma RT_none : (forall e n r cs n', hr e n r cs n' -> arith_ok r = true -> cs = Cnil -> forall t s, RT t s r e) /\
  (forall l n r cs n', hrs l n r cs n' -> args_ok r = true -> cs = Cnil -> forall t s, RTs t s r l).
Proof.
  apply hr_hrs_ind; intros; cbn [ShCall.arith_ok ShCall.args_ok] in *; try (constructor; auto; fail); br.
  - apply capp_nil_inv in H2; destruct H2. constructor; auto.
  - apply capp_nil_inv in H2; destruct H2. constructor; auto.
  - apply capp_nil_inv in H2; destruct H2. constructor; auto.
  - apply snoc_not_nil in H1. contradiction.
  - change (arith_ok (RLg o ra rb la lb) = true) in H1. apply lg_nil in H1. destruct H1 as [-> [-> [P Q]]]. constructor; auto.
  - constructor; auto.
  - apply snoc_not_nil in H1. contradiction.
  - apply capp_nil_inv in H2; destruct H2. constructor; auto. apply H; auto. apply nolog_arith. assumption.
Qed.

(** *** Steps in context *)
Lemma star_trans e s e1 s1 e2 s2 : star e s e1 s1 -> star e1 s1 e2 s2 -> star e s e2 s2.
Proof. induction 1; intros K; [exact K|]. econstructor; [eassumption|auto]. Qed.
Lemma star_one e s e1 s1 : step e s e1 s1 -> star e s e1 s1.
Proof. intros H. econstructor; [exact H|constructor]. Qed.
Lemma star_ctx (C : ex -> ex) : (forall a s a' s', step a s a' s' -> step (C a) s (C a') s') ->
  forall a s a' s', star a s a' s' -> star (C a) s (C a') s'.
Proof. intros HC a s a' s'. induction 1; [constructor|]. econstructor; [apply HC; eassumption|assumption]. Qed.
Lemma un_ctx u a s a' s' : star a s a' s' -> star (EUn u a) s (EUn u a') s'.
Proof. apply (star_ctx (EUn u)). intros; apply S_un1; assumption. Qed.
Lemma bn_ctx1 o b a s a' s' : star a s a' s' -> star (EBn o a b) s (EBn o a' b) s'.
Proof. apply (star_ctx (fun a => EBn o a b)). intros; apply S_bn1; assumption. Qed.
Lemma bn_ctx2 o b a s a' s' : star a s a' s' -> star (EBn o b a) s (EBn o b a') s'.
Proof. apply (star_ctx (fun a => EBn o b a)). intros; apply S_bn2; assumption. Qed.
Lemma cp_ctx1 o b a s a' s' : star a s a' s' -> star (ECp o a b) s (ECp o a' b) s'.
Proof. apply (star_ctx (fun a => ECp o a b)). intros; apply S_cp1; assumption. Qed.
Lemma cp_ctx2 o b a s a' s' : star a s a' s' -> star (ECp o b a) s (ECp o b a') s'.
Proof. apply (star_ctx (fun a => ECp o b a)). intros; apply S_cp2; assumption. Qed.
Lemma cm_ctx b a s a' s' : star a s a' s' -> star (ECm a b) s (ECm a' b) s'.
Proof. apply (star_ctx (fun a => ECm a b)). intros; apply S_cm1; assumption. Qed.
Lemma as_ctx x a s a' s' : star a s a' s' -> star (EAs x a) s (EAs x a') s'.
Proof. apply (star_ctx (EAs x)). intros; apply S_as1; assumption. Qed.
Lemma lg_ctx o b a s a' s' : star a s a' s' -> star (ELg o a b) s (ELg o a' b) s'.
Proof. apply (star_ctx (fun a => ELg o a b)). intros; apply S_lg1; assumption. Qed.
Lemma cd_ctx b c a s a' s' : star a s a' s' -> star (ECd a b c) s (ECd a' b c) s'.
Proof. apply (star_ctx (fun a => ECd a b c)). intros; apply S_cd1; assumption. Qed.
Lemma ca_ctx a s a' s' : star a s a' s' -> star (ECa a) s (ECa a') s'.
Proof. apply (star_ctx ECa). intros; apply S_ca1; assumption. Qed.
Lemma pl_ctx a s a' s' : star a s a' s' -> star (EPl a) s (EPl a') s'.
Proof. apply (star_ctx EPl). intros; apply S_pl1; assumption. Qed.
Lemma pa_ctx a s a' s' : star a s a' s' -> star (EPa a) s (EPa a') s'.
Proof. apply (star_ctx EPa). intros; apply S_pa1; assumption. Qed.
(* lists of arguments *)
Inductive stars : exs -> St -> exs -> St -> Prop :=
| Ss_refl l s : stars l s l s
| Ss_more l s l1 s1 l2 s2 : steps1 l s l1 s1 -> stars l1 s1 l2 s2 -> stars l s l2 s2.
Lemma stars_trans e s e1 s1 e2 s2 : stars e s e1 s1 -> stars e1 s1 e2 s2 -> stars e s e2 s2.
Proof. induction 1; intros K; [exact K|]. econstructor; [eassumption|auto]. Qed.
Lemma stars_here l a s a' s' : star a s a' s' -> stars (Econs a l) s (Econs a' l) s'.
Proof. induction 1; [constructor|]. econstructor; [apply S_here; eassumption|assumption]. Qed.
Lemma stars_there a l s l' s' : stars l s l' s' -> stars (Econs a l) s (Econs a l') s'.
Proof. induction 1; [constructor|]. econstructor; [apply S_there; eassumption|assumption]. Qed.
Lemma cl_ctx f l s l' s' : stars l s l' s' -> star (ECl f l) s (ECl f l') s'.
Proof. induction 1; [constructor|]. econstructor; [apply S_cl1; eassumption|assumption]. Qed.

(** *** Evaluating what is left *)
Lemma reval_star r : forall t s e v s1, RT t s r e -> (rv r = true -> rpure r = true) ->
  reval r t s = (v, s1) -> star e s (EVl v) s1.
Proof.
  assert (MV : forall r t s e s', RT t s r e -> (rv r = true -> s' = s) -> RT t s' r e).
  { intros r0 t s e s' H HS. revert HS. induction H; intros HS; cbn [rv] in HS; try (constructor; auto; fail);
      try (constructor; [apply IHRT1|apply IHRT2]; intros K; apply HS; rewrite K; rewrite ?orb_true_r; reflexivity).
    - rewrite <- HS by reflexivity. constructor.
    - apply T_cm2; auto. apply IHRT. intros K; apply HS; rewrite K; apply orb_true_r.
    - constructor; [apply IHRT1|apply IHRT2|apply IHRT3]; intros K; apply HS; rewrite K; rewrite ?orb_true_r; reflexivity. }
  assert (BIN : forall r1 r2 t s e1 e2 v1 s1 v2 s2 (C : ex -> ex -> ex),
    (forall t s e v s1, RT t s r1 e -> (rv r1 = true -> rpure r1 = true) -> reval r1 t s = (v, s1) -> star e s (EVl v) s1) ->
    (forall t s e v s1, RT t s r2 e -> (rv r2 = true -> rpure r2 = true) -> reval r2 t s = (v, s1) -> star e s (EVl v) s1) ->
    RT t s r1 e1 -> RT t s r2 e2 -> ((rv r1 || rv r2)%bool = true -> (rpure r1 && rpure r2)%bool = true) ->
    reval r1 t s = (v1, s1) -> reval r2 t s1 = (v2, s2) ->
    star e1 s (EVl v1) s1 /\ star e2 s1 (EVl v2) s2).
  { intros r1 r2 t s e1 e2 v1 s1 v2 s2 C I1 I2 T1 T2 HP E1 E2.
    assert (R1 : rv r1 = true -> rpure r1 = true) by (intros K; rewrite K in HP; specialize (HP eq_refl); br; auto).
    assert (R2 : rv r2 = true -> rpure r2 = true) by (intros K; rewrite K, orb_true_r in HP; specialize (HP eq_refl); br; auto).
    split; [eapply I1; eauto|]. eapply I2; [|exact R2|exact E2]. apply (MV _ _ _ _ _ T2).
    intros K. rewrite K, orb_true_r in HP; specialize (HP eq_refl); br.
    pose proof (pure_state r1 H t s) as Q. rewrite E1 in Q. exact Q. }
  induction r as [v|l|x|x|k|u r IHr|o r1 IHr1 r2 IHr2|o r1 IHr1 r2 IHr2|r1 IHr1 r2 IHr2|x r IHr|isand r1 IHr1 r2 IHr2 la lb|r1 IHr1 r2 IHr2 r3 IHr3|r IHr|r IHr|r IHr]; intros t s e w s1 HT HP HE; cbn [ShCall.reval rv rpure] in *.
  - inversion HT; subst. inversion HE; subst. constructor.
  - inversion HT; subst. inversion HE; subst. apply star_one. constructor.
  - inversion HT; subst. inversion HE; subst. apply star_one. constructor.
  - inversion HT; subst. inversion HE; subst. constructor.
  - inversion HT; subst. inversion HE; subst. constructor.
  - inversion HT; subst. destruct (reval r t s) as [v1 s2] eqn:E1.
    eapply star_trans; [apply un_ctx; eapply IHr; eauto; intros K; specialize (HP K); br; auto|]. apply star_one. apply S_un. exact HE.
  - inversion HT; subst. destruct (reval r1 t s) as [v1 s2] eqn:E1. destruct (reval r2 t s2) as [v2 s3] eqn:E2.
    destruct (BIN r1 r2 t s a' b' v1 s2 v2 s3 (EBn o)) as [A B]; eauto. { intros K; specialize (HP K); br. rewrite H0, H1. reflexivity. }
    eapply star_trans; [apply bn_ctx1; exact A|]. eapply star_trans; [apply bn_ctx2; exact B|].
    apply star_one. apply S_bn. exact HE.
  - inversion HT; subst. destruct (reval r1 t s) as [v1 s2] eqn:E1. destruct (reval r2 t s2) as [v2 s3] eqn:E2. inversion HE; subst.
    destruct (BIN r1 r2 t s a' b' v1 s2 v2 s1 (ECp o)) as [A B]; eauto.
    eapply star_trans; [apply cp_ctx1; exact A|]. eapply star_trans; [apply cp_ctx2; exact B|].
    apply star_one. apply S_cp.
  - inversion HT; subst; destruct (reval r1 t s) as [v1 s2] eqn:E1.
    + destruct (BIN r1 r2 t s a' b' v1 s2 w s1 ECm) as [A B]; eauto.
      eapply star_trans; [apply cm_ctx; exact A|]. econstructor; [apply S_cm|exact B].
    + match goal with P : rpure r1 = true |- _ => pose proof (pure_state r1 P t s) as Q end. rewrite E1 in Q. cbn [snd] in Q. subst s2.
      apply (IHr2 t s e w s1); auto. intros K. rewrite K, orb_true_r in HP. specialize (HP eq_refl). br. assumption.
  - inversion HT; subst. destruct (reval r t s) as [v1 s2] eqn:E1. inversion HE; subst.
    eapply star_trans; [apply as_ctx; eapply IHr; eauto; intros K; specialize (HP K); discriminate|]. apply star_one. apply S_as.
  - inversion HT; subst. destruct (reval r1 t s) as [v1 s2] eqn:E1.
    destruct (Bool.eqb (nz v1) isand) eqn:EB.
    + destruct (reval r2 t s2) as [v2 s3] eqn:E2. inversion HE; subst. apply eqb_prop in EB.
      destruct (BIN r1 r2 t s a' b' v1 s2 v2 s1 (ELg isand)) as [A B]; eauto.
      eapply star_trans; [apply lg_ctx; exact A|]. econstructor; [apply S_lg_go; exact EB|].
      eapply star_trans; [apply cd_ctx; exact B|].
      replace (EVl (b2z (nz v2)) : ex) with (if nz v2 then EVl 1 else EVl 0 : ex) by (destruct (nz v2); reflexivity).
      apply star_one. apply S_cd.
    + inversion HE; subst. assert (EN : nz v1 = negb isand) by (destruct (nz v1), isand; try discriminate; reflexivity).
      eapply star_trans; [apply lg_ctx; eapply IHr1; eauto; intros K; rewrite K in HP; specialize (HP eq_refl); br; auto|].
      rewrite EN. apply star_one. apply S_lg_stop. exact EN.
  - inversion HT; subst. destruct (reval r1 t s) as [v1 s2] eqn:E1.
    assert (P1 : rv r1 = true -> rpure r1 = true) by (intros K; rewrite K in HP; specialize (HP eq_refl); br; auto).
    eapply star_trans; [apply cd_ctx; eapply IHr1; eauto|]. econstructor; [apply S_cd|].
    assert (SS : (rv r2 || rv r3)%bool = true -> s2 = s).
    { intros K. rewrite <- orb_assoc, K, orb_true_r in HP. specialize (HP eq_refl). br.
      pose proof (pure_state r1 H t s) as Q. rewrite E1 in Q. exact Q. }
    destruct (nz v1).
    + eapply IHr2; [|intros K; rewrite K, orb_true_r in HP; specialize (HP eq_refl); br; auto|exact HE].
      apply (MV _ _ s); [assumption|]. intros K. apply SS. rewrite K. reflexivity.
    + eapply IHr3; [|intros K; rewrite K, orb_true_r in HP; specialize (HP eq_refl); br; auto|exact HE].
      apply (MV _ _ s); [assumption|]. intros K. apply SS. rewrite K. apply orb_true_r.
  - inversion HT; subst. eapply star_trans; [apply ca_ctx; eapply IHr; eauto|]. apply star_one. apply S_ca.
  - inversion HT; subst. eapply star_trans; [apply pl_ctx; eapply IHr; eauto|]. apply star_one. apply S_pl.
  - inversion HT; subst. eapply star_trans; [apply pa_ctx; eapply IHr; eauto|]. apply star_one. apply S_pa.
Qed.
Lemma revals_stars l : forall t s es vs s1, RTs t s l es -> (rvs l = true -> rpures l = true) ->
  revals l t s = (vs, s1) -> exists es', stars es s es' s1 /\ values es' = Some vs.
Proof.
  assert (MV : forall r t s e s', RT t s r e -> (rv r = true -> s' = s) -> RT t s' r e).
  { intros r0 t s e s' H HS. revert HS. induction H; intros HS; cbn [rv] in HS; try (constructor; auto; fail);
      try (constructor; [apply IHRT1|apply IHRT2]; intros K; apply HS; rewrite K; rewrite ?orb_true_r; reflexivity).
    - rewrite <- HS by reflexivity. constructor.
    - apply T_cm2; auto. apply IHRT. intros K; apply HS; rewrite K; apply orb_true_r.
    - constructor; [apply IHRT1|apply IHRT2|apply IHRT3]; intros K; apply HS; rewrite K; rewrite ?orb_true_r; reflexivity. }
  assert (MVs : forall l t s e s', RTs t s l e -> (rvs l = true -> s' = s) -> RTs t s' l e).
  { intros l0 t s e s' H HS. revert HS. induction H; intros HS; cbn [rvs] in HS; constructor.
    - apply (MV _ _ s); auto. intros K; apply HS; rewrite K; reflexivity.
    - apply IHRTs. intros K; apply HS; rewrite K; apply orb_true_r. }
  induction l as [|a l IH]; intros t s es vs s1 HT HP HE; cbn [ShCall.revals rvs rpures] in *.
  - inversion HT; subst. inversion HE; subst. exists Enil. split; [constructor|reflexivity].
  - inversion HT; subst. destruct (reval a t s) as [v s2] eqn:E1. destruct (revals l t s2) as [vs' s3] eqn:E2. inversion HE; subst.
    assert (A : star a' s (EVl v) s2).
    { eapply reval_star; eauto. intros K. rewrite K in HP. specialize (HP eq_refl). br. assumption. }
    destruct (IH t s2 l' vs' s1) as [es' [B C]]; [|intros K; rewrite K, orb_true_r in HP; specialize (HP eq_refl); br; assumption|exact E2|].
    { apply (MVs _ _ s); [assumption|]. intros K. rewrite K, orb_true_r in HP. specialize (HP eq_refl). br.
      pose proof (pure_state a H t s) as Q. rewrite E1 in Q. exact Q. }
    exists (Econs (EVl v) es'). split.
    + eapply stars_trans; [apply stars_here; exact A|apply stars_there; exact B].
    + cbn [ShCall.values]. rewrite C. reflexivity.
Qed.

(** *** The calls *)
Lemma rcalls_capp c d p q : rcalls (capp c d) p q -> exists m, rcalls c p m /\ rcalls d m q.
Proof.
  revert p. induction c as [|t f a c IH]; cbn [ShCall.capp]; intros p H.
  - exists p. split; [constructor|exact H].
  - inversion H; subst. destruct (IH _ ltac:(eassumption)) as [m [A B]]. exists m. split; [econstructor; eassumption|exact B].
Qed.
Lemma rcalls_snoc c t f a p q : rcalls (snoc c t f a) p q -> exists m b, rcalls c p m /\ rsimple (SCall t f a) m b q.
Proof.
  revert p. induction c as [|t0 f0 a0 c IH]; cbn [ShCall.snoc]; intros p H.
  - inversion H; subst. match goal with K : rcalls Cnil _ _ |- _ => inversion K; subst end. exists p. eexists. split; [constructor|eassumption].
  - inversion H; subst. destruct (IH _ ltac:(eassumption)) as [m [b0 [A B]]]. exists m, b0. split; [econstructor; eassumption|exact B].
Qed.
Lemma below_args : forall l n r cs n', hrs l n r cs n' -> args_ok r = true ->
  (fix bl (l : rxs) := match l with Rnil => True | Rcons a l => below n' a /\ bl l end) r.
Proof.
  induction l as [|a l IH]; intros n r cs n' H A; inversion H; subst; cbn [ShCall.args_ok] in A; br; [exact I|].
  split; [|eapply IH; eauto]. apply (below_mono n1); [eapply (proj2 hr_mono); eauto|].
  eapply (proj1 hr_below); eauto. apply nolog_arith; assumption.
Qed.
Definition runA (e : ex) (r : rx) (cs : cls) : Prop := forall c, value c e = true -> arith_ok r = true -> calls_ok cs = true ->
  forall t s t' s', rcalls cs (t, s) (t', s') -> exists e', star e s e' s' /\ RT t' s' r e'.
Definition runAs (l : exs) (r : rxs) (cs : cls) : Prop := forall c, valuel c l = true -> args_ok r = true -> calls_ok cs = true ->
  forall t s t' s', rcalls cs (t, s) (t', s') -> exists l', stars l s l' s' /\ RTs t' s' r l'.
Lemma two_run a b n ra ca n1 rb cb n2 c : hr a n ra ca n1 -> hr b n1 rb cb n2 -> runA a ra ca -> runA b rb cb ->
  value c a = true -> value c b = true -> (asgs a && calls b)%bool = false ->
  arith_ok ra = true -> arith_ok rb = true -> calls_ok (capp ca cb) = true ->
  forall t s t' s', rcalls (capp ca cb) (t, s) (t', s') -> exists s1 a' b',
    star a s a' s1 /\ star b s1 b' s' /\ RT t' s' ra a' /\ RT t' s' rb b' /\
    (exists t1, rcalls ca (t, s) (t1, s1) /\ rcalls cb (t1, s1) (t', s') /\ RT t1 s1 ra a').
Proof.
  intros Ha Hb IHa IHb Va Vb HT Aa Ab HC t s t' s' HR. rewrite calls_ok_capp in HC. br.
  apply rcalls_capp in HR. destruct HR as [[t1 s1] [R1 R2]].
  destruct (IHa c Va Aa H _ _ _ _ R1) as [a' [S1 T1]]. destruct (IHb c Vb Ab H0 _ _ _ _ R2) as [b' [S2 T2]].
  exists s1, a', b'. split; [exact S1|]. split; [exact S2|].
  split; [|split; [exact T2|exists t1; auto]].
  apply (RT_move _ _ _ _ T1 n1).
  - eapply (proj1 hr_below); eauto.
  - apply (rcalls_above _ _ _ n1 R2). eapply (proj1 hr_above); eauto.
  - intros K. rewrite (proj1 rv_asgs _ _ _ _ _ Ha) in K. rewrite K in HT. cbn [andb] in HT.
    rewrite (proj1 (nocalls _ _ _ _ _ _) _ _ _ _ _ Hb HT) in R2. inversion R2. reflexivity.
Qed.
Lemma call_args rs cs l n n' : hrs l n rs cs n' -> runAs l rs cs -> forall c, valuel c l = true ->
  (asgss l && effss l)%bool = false -> args_ok rs = true -> calls_ok cs = true ->
  forall t s m, rcalls cs (t, s) m -> forall vs s2, revals rs (fst m) (snd m) = (vs, s2) ->
  exists l', stars l s l' s2 /\ values l' = Some vs.
Proof.
  intros Hl IH c V HP HA HC t s [t1 s1] HR vs s2 HE. cbn [fst snd] in HE.
  destruct (IH c V HA HC _ _ _ _ HR) as [l1 [S1 T1]].
  destruct (revals_stars rs t1 s1 l1 vs s2 T1) as [l2 [S2 V2]]; [|exact HE|].
  - intros K. rewrite (proj2 rv_asgs _ _ _ _ _ Hl) in K. rewrite (proj2 pure_effs _ _ _ _ _ Hl).
    rewrite K in HP. cbn [andb] in HP. rewrite HP. reflexivity.
  - exists l2. split; [eapply stars_trans; eassumption|exact V2].
Qed.
Lemma run_calls : (forall e n r cs n', hr e n r cs n' -> runA e r cs) /\ (forall l n r cs n', hrs l n r cs n' -> runAs l r cs).
Proof.
  apply hr_hrs_ind; unfold runA, runAs; intros; cbn [ShCall.arith_ok ShCall.args_ok] in *; br.
  - match goal with K : rcalls _ _ _ |- _ => inversion K; subst end. eexists; split; [constructor|constructor].
  - match goal with K : rcalls _ _ _ |- _ => inversion K; subst end. eexists; split; [constructor|constructor].
  - match goal with K : rcalls _ _ _ |- _ => inversion K; subst end. eexists; split; [constructor|constructor].
  - destruct (H c H0 H1 H2 _ _ _ _ H3) as [a' [A B]]. exists (EUn u a'). split; [apply un_ctx; exact A|constructor; exact B].
  - cbn [ShCall.value] in H1. unfold two in H1. br.
    destruct (two_run a b n ra ca n1 rb cb n2 c h h0 H H0) with (t := t) (s := s) (t' := t') (s' := s')
      as [s1 [a' [b' [A [B [C [D _]]]]]]]; auto.
    exists (EBn o a' b'). split; [eapply star_trans; [apply bn_ctx1; exact A|apply bn_ctx2; exact B]|constructor; assumption].
  - cbn [ShCall.value] in H1. unfold two in H1. br.
    destruct (two_run a b n ra ca n1 rb cb n2 c h h0 H H0) with (t := t) (s := s) (t' := t') (s' := s')
      as [s1 [a' [b' [A [B [C [D _]]]]]]]; auto.
    exists (ECp o a' b'). split; [eapply star_trans; [apply cp_ctx1; exact A|apply cp_ctx2; exact B]|constructor; assumption].
  - cbn [ShCall.value] in H1. unfold two in H1. br.
    destruct (two_run a b n ra ca n1 rb cb n2 c h h0 H H0) with (t := t) (s := s) (t' := t') (s' := s')
      as [s1 [a' [b' [A [B [C [D [t1 [R1 [R2 T1]]]]]]]]]]; auto.
    destruct (calls b) eqn:CB.
    + (* the left operand is finished before the calls of the right one *)
      assert (EP : rpure ra = true).
      { rewrite (proj1 pure_effs _ _ _ _ _ h). destruct (effs a); [discriminate|reflexivity]. }
      assert (SA : star a' s1 (EVl (fst (reval ra t1 s1))) s1).
      { apply (reval_star ra t1 s1 a'); auto. pose proof (pure_state ra EP t1 s1) as Q. destruct (reval ra t1 s1). cbn [snd fst] in *. congruence. }
      exists b'. split; [|apply T_cm2; assumption].
      eapply star_trans; [apply cm_ctx; eapply star_trans; [exact A|exact SA]|]. econstructor; [apply S_cm|exact B].
    + rewrite (proj1 (nocalls _ _ _ _ _ _) _ _ _ _ _ h0 CB) in R2. inversion R2; subst.
      exists (ECm a' b). split; [apply cm_ctx; exact A|]. constructor; [exact C|].
      eapply (proj1 RT_none); eauto. exact (proj1 (nocalls _ _ _ _ _ _) _ _ _ _ _ h0 CB).
  - destruct (H c) with (t := t) (s := s) (t' := t') (s' := s') as [a' [A B]]; auto.
    exists (EAs x a'). split; [apply as_ctx; exact A|constructor; exact B].
  - change (value c (ECl f l) = true) in H0. rewrite value_cl in H0. br. rewrite calls_ok_snoc in H2. br.
    apply rcalls_snoc in H3. destruct H3 as [[t1 s1] [b0 [R1 R2]]]. inversion R2; subst.
    destruct (call_args rs cs l n n' h H c) with (t := t) (s := s) (m := (t', s1)) (vs := vs) (s2 := s2) as [l' [A B]]; auto.
    eexists. split; [|]. 
    + eapply star_trans; [apply as_ctx; eapply star_trans; [apply cl_ctx; exact A|apply star_one; eapply S_cl; eassumption]|].
      apply star_one. apply S_as.
    + match goal with |- RT _ (setx x ?v ?s0) _ _ => rewrite <- (get_set x v s0) at 2 end. constructor.
  - match goal with K : rcalls _ _ _ |- _ => inversion K; subst end.
    exists (ELg o a b). split; [constructor|]. change (arith_ok (RLg o ra rb la lb) = true) in H2.
    apply lg_nil in H2. destruct H2 as [-> [-> [P Q]]]. constructor; eapply (proj1 RT_none); eauto.
  - cbn [ShCall.value] in H2. br. destruct (H1 c0) with (t := t) (s := s) (t' := t') (s' := s') as [c' [A B]]; auto.
    exists (ECd c' a b). split; [apply cd_ctx; exact A|]. constructor; [exact B| |]; eapply (proj1 RT_none); eauto.
  - destruct (H c H0 H1 H2 _ _ _ _ H3) as [a' [A B]]. exists (ECa a'). split; [apply ca_ctx; exact A|constructor; exact B].
  - destruct (H c H0 H1 H2 _ _ _ _ H3) as [a' [A B]]. exists (EPl a'). split; [apply pl_ctx; exact A|constructor; exact B].
  - destruct (H c H0 H1 H2 _ _ _ _ H3) as [a' [A B]]. exists (EPa a'). split; [apply pa_ctx; exact A|constructor; exact B].
  - rewrite value_cl in H0. br. rewrite calls_ok_snoc in H2. br.
    apply rcalls_snoc in H3. destruct H3 as [[t1 s1] [b0 [R1 R2]]]. inversion R2; subst.
    destruct (call_args rs cs l n n' h H c) with (t := t) (s := s) (m := (t1, s1)) (vs := vs) (s2 := s2) as [l' [A B]]; auto.
    exists (EVl v). split.
    + eapply star_trans; [apply cl_ctx; exact A|apply star_one; eapply S_cl; eassumption].
    + replace v with (sett (S n) v t1 (S n)) at 2 by (unfold sett; rewrite Nat.eqb_refl; reflexivity). constructor.
  - match goal with K : rcalls _ _ _ |- _ => inversion K; subst end. eexists; split; [constructor|constructor].
  - rewrite valuel_cons in H1. br. rewrite calls_ok_capp in H3. br.
    apply rcalls_capp in H4. destruct H4 as [[t1 s1] [R1 R2]].
    destruct (H c) with (t := t) (s := s) (t' := t1) (s' := s1) as [a' [A B]]; auto. { apply nolog_arith. assumption. }
    destruct (H0 c) with (t := t1) (s := s1) (t' := t') (s' := s') as [l' [C D]]; auto.
    exists (Econs a' l'). split; [eapply stars_trans; [apply stars_here; exact A|apply stars_there; exact C]|].
    constructor; [|exact D]. apply (RT_move _ _ _ _ B n1).
    + eapply (proj1 hr_below); eauto. apply nolog_arith. assumption.
    + apply (rcalls_above _ _ _ n1 R2). eapply (proj2 hr_above); eauto.
    + intros K. rewrite (proj1 rv_asgs _ _ _ _ _ h) in K.
      assert (CB : callss l = false) by (rewrite K in *; assumption).
      rewrite (proj2 (nocalls _ _ _ _ _ _) _ _ _ _ _ h0 CB) in R2. inversion R2. reflexivity.
Qed.
(* a value: the calls, then what is left *)
Lemma run_value e n r cs n' c : hr e n r cs n' -> value c e = true -> (asgs e && effs e)%bool = false ->
  arith_ok r = true -> calls_ok cs = true ->
  forall t s t' s' v s'', rcalls cs (t, s) (t', s') -> reval r t' s' = (v, s'') -> star e s (EVl v) s''.
Proof.
  intros H V HP A C t s t' s' v s'' HR HE. destruct (proj1 run_calls _ _ _ _ _ H c V A C _ _ _ _ HR) as [e' [S1 T1]].
  eapply star_trans; [exact S1|]. eapply reval_star; eauto. intros K.
  rewrite (proj1 rv_asgs _ _ _ _ _ H) in K. rewrite (proj1 pure_effs _ _ _ _ _ H). rewrite K in HP. cbn [andb] in HP. rewrite HP. reflexivity.
Qed.

(** *** Conditions *)
Notation tok := (tok L X U O R Fn).
Notation elem := (elem L X U O R Fn).
Notation andor := (andor L X U O R Fn).
Notation clist := (clist L X U O R Fn).
Notation gelem := (gelem L X U O R Fn).
Notation gandor := (gandor L X U O R Fn).
Notation gclist := (gclist L X U O R Fn).
Notation relem := (relem L X U O R Fn St rd rdv setx un bn cmp call).
Notation randor := (randor L X U O R Fn St rd rdv setx un bn cmp call).
Notation rclist := (rclist L X U O R Fn St rd rdv setx un bn cmp call).
Notation calltoks := (calltoks L X U O R Fn).
Notation prefixed := (prefixed L X U O R Fn).
Notation test := (test L X U O R Fn).
Notation braces := (braces L X U O R Fn).
Notation strip := (strip L X U O R Fn).
Notation test_ok := (test_ok L X U O R Fn upure opure).
Notation deep := (deep L X U O R Fn).
Notation castcall := (castcall L X U O R Fn).
Notation simple := (simple L X U O R Fn).
Definition one (x : simple) : andor := AOne (ESimple x).
Fixpoint addc (c : clist) (l : cls) (x : simple) : clist :=
  match l with Cnil => LSeq c (one x) | Ccons t f a l => addc (LSeq c (one (SCall t f a))) l x end.
Definition seqcl (l : cls) (x : simple) : clist :=
  match l with Cnil => LOne (one x) | Ccons t f a l => addc (LOne (one (SCall t f a))) l x end.
Lemma g_one x : gandor [KSimple x] (one x).
Proof. constructor. constructor. Qed.
Lemma addc_g l x : forall t c, gclist t c -> gclist (t ++ KSemi :: calltoks l ++ [KSimple x]) (addc c l x).
Proof.
  induction l as [|t0 f a l IH]; intros t c H; cbn [ShCall.calltoks addc app].
  - apply G_seq; [exact H|apply g_one].
  - replace (t ++ KSemi :: KSimple (SCall t0 f a) :: KSemi :: calltoks l ++ [KSimple x])
      with ((t ++ KSemi :: [KSimple (SCall t0 f a)]) ++ KSemi :: calltoks l ++ [KSimple x]) by (rewrite <- app_assoc; reflexivity).
    apply IH. apply G_seq; [exact H|apply g_one].
Qed.
Lemma seqcl_g l x : gclist (calltoks l ++ [KSimple x]) (seqcl l x).
Proof.
  destruct l as [|t f a l]; cbn [ShCall.calltoks seqcl app]; [constructor; apply g_one|].
  apply (addc_g l x [KSimple (SCall t f a)]). constructor. apply g_one.
Qed.
Lemma one_run x p b q : randor (one x) p b q -> rsimple x p b q.
Proof. intros H. inversion H; subst. match goal with K : relem _ _ _ _ |- _ => inversion K; subst end. assumption. Qed.
Lemma addc_run l x : forall c p b q, rclist (addc c l x) p b q -> exists b0 m m', rclist c p b0 m /\ rcalls l m m' /\ rsimple x m' b q.
Proof.
  induction l as [|t0 f a l IH]; intros c p b q H; cbn [addc] in H.
  - inversion H; subst. match goal with K : randor _ _ _ _ |- _ => apply one_run in K end.
    repeat eexists; [eassumption|constructor|assumption].
  - apply IH in H. destruct H as [b0 [m [m' [A [B C]]]]]. inversion A; subst.
    match goal with K : randor _ _ _ _ |- _ => apply one_run in K end.
    repeat eexists; [eassumption|econstructor; eassumption|assumption].
Qed.
Lemma seqcl_run l x p b q : rclist (seqcl l x) p b q -> exists m, rcalls l p m /\ rsimple x m b q.
Proof.
  destruct l as [|t f a l]; cbn [seqcl]; intros H.
  - inversion H; subst. match goal with K : randor _ _ _ _ |- _ => apply one_run in K end. exists p. split; [constructor|assumption].
  - apply addc_run in H. destruct H as [b0 [m [m' [A [B C]]]]]. inversion A; subst.
    match goal with K : randor _ _ _ _ |- _ => apply one_run in K end. exists m'. split; [econstructor; eassumption|assumption].
Qed.
Definition pelem (l : cls) (r : rx) : elem :=
  match l with Cnil => ESimple (STest r) | _ => EGroup (seqcl l (STest r)) end.
Lemma pelem_g l r : gelem (prefixed l [KSimple (STest r)]) (pelem l r).
Proof.
  destruct l as [|t f a l]; cbn [ShCall.prefixed pelem]; [constructor|].
  match goal with |- gelem (KOpen :: ?u) _ => replace u with ((calltoks (Ccons t f a l) ++ [KSimple (STest r)]) ++ [KSemi; KClose]) end.
  - constructor. apply seqcl_g.
  - rewrite <- app_assoc. reflexivity.
Qed.
Lemma pelem_run l r p b q : relem (pelem l r) p b q -> exists m, rcalls l p m /\ rsimple (STest r) m b q.
Proof.
  destruct l as [|t f a l]; cbn [pelem]; intros H; inversion H; subst.
  - exists p. split; [constructor|assumption].
  - apply seqcl_run. assumption.
Qed.
(* a && b && c ..., run from left to right *)
Fixpoint rk (o : bool) (es : list elem) (b0 : bool) (p : temps * St) (b : bool) (q : temps * St) : Prop :=
  match es with
  | [] => b = b0 /\ q = p
  | e :: es => if Bool.eqb b0 o then exists b1 q1, relem e p b1 q1 /\ rk o es b1 q1 b q else b = b0 /\ q = p
  end.
Lemma rk_stop o es p b q : rk o es (negb o) p b q <-> b = negb o /\ q = p.
Proof. destruct es; cbn [rk]; [tauto|]. destruct o; cbn; tauto. Qed.
Lemma rk_app o es fs : forall b0 p b q, rk o (es ++ fs) b0 p b q -> exists b1 q1, rk o es b0 p b1 q1 /\ rk o fs b1 q1 b q.
Proof.
  induction es as [|e es IH]; cbn [app rk]; intros b0 p b q H; [eauto|].
  destruct (Bool.eqb b0 o) eqn:E.
  - destruct H as [b1 [q1 [A B]]]. destruct (IH _ _ _ _ B) as [b2 [q2 [C D]]]. eauto 8.
  - destruct H as [-> ->]. exists b0, p. split; [auto|]. assert (b0 = negb o) as -> by (destruct b0, o; try discriminate; reflexivity).
    apply rk_stop. auto.
Qed.
Fixpoint foldl (o : bool) (a : andor) (es : list elem) : andor := match es with [] => a | e :: es => foldl o (ALog a o e) es end.
Lemma foldl_run o es : forall a p b q, randor (foldl o a es) p b q -> exists b1 q1, randor a p b1 q1 /\ rk o es b1 q1 b q.
Proof.
  induction es as [|e es IH]; cbn [foldl rk]; intros a p b q H; [eauto|].
  apply IH in H. destruct H as [b1 [q1 [A B]]]. inversion A; subst.
  - eexists; eexists. split; [eassumption|]. rewrite eqb_reflx. eauto.
  - exists (negb o), q1. split; [assumption|]. apply rk_stop in B. destruct o; exact B.
Qed.
Inductive joined (o : bool) : list elem -> list tok -> Prop :=
| J_one t e : gelem t e -> joined o [e] t
| J_more t e es u : gelem t e -> joined o es u -> joined o (e :: es) (t ++ KLog o :: u).
Lemma joined_app o es t fs u : joined o es t -> joined o fs u -> joined o (es ++ fs) (t ++ KLog o :: u).
Proof.
  induction 1; intros J; cbn [app]; [constructor; assumption|].
  rewrite <- app_assoc. cbn [app]. constructor; auto.
Qed.
Lemma joined_fold o es u : joined o es u -> forall t a, gandor t a -> gandor (t ++ KLog o :: u) (foldl o a es).
Proof.
  induction 1; intros t0 a G; cbn [foldl]; [constructor; assumption|].
  replace (t0 ++ KLog o :: t ++ KLog o :: u) with ((t0 ++ KLog o :: t) ++ KLog o :: u) by (rewrite <- app_assoc; reflexivity).
  apply IHjoined. constructor; assumption.
Qed.
Definition chain (o : bool) (es : list elem) : andor := match es with [] => AOne (EGroup (LOne (one (STest (RVl 0))))) | e :: es => foldl o (AOne e) es end.
Lemma joined_g o es t : joined o es t -> gandor t (chain o es).
Proof.
  intros H; destruct H; cbn [chain foldl]; [constructor; assumption|]. apply joined_fold; [assumption|constructor; assumption].
Qed.
Lemma chain_run o es t p b q : joined o es t -> randor (chain o es) p b q -> rk o es o p b q.
Proof.
  intros J H. destruct es as [|e es]; [inversion J|]. cbn [chain] in H. apply foldl_run in H. destruct H as [b1 [q1 [A B]]].
  inversion A; subst. cbn [rk]. rewrite eqb_reflx. eauto.
Qed.

(* a condition without && and || at the top *)
Lemma nondeep e : deep e = false -> forall n r cs n' tse toks, hr e n r cs n' -> test r tse = Some toks ->
  exists r0 tse', arith_ok r = true /\ calls_ok tse' = true /\ toks = prefixed tse' [KSimple (STest r0)] /\
    (forall t s, reval r0 t s = reval r t s) /\ (tse' = tse \/ tse' = Cnil /\ castcall e = calls e) /\
    (forall o u, braces o r u = u).
Proof.
  assert (LEAF : forall (e : ex) r tse toks, (if (arith_ok r && calls_ok tse)%bool then Some (prefixed tse [KSimple (STest r)]) else None) = Some toks ->
    (forall o u, braces o r u = u) ->
    exists r0 tse', arith_ok r = true /\ calls_ok tse' = true /\ toks = prefixed tse' [KSimple (STest r0)] /\
    (forall t s, reval r0 t s = reval r t s) /\ (tse' = tse \/ tse' = Cnil /\ castcall e = calls e) /\ (forall o u, braces o r u = u)).
  { intros e0 r tse toks H HB. destruct (arith_ok r && calls_ok tse)%bool eqn:E; [|discriminate]. br. injection H as <-.
    exists r, tse. auto 8. }
  induction e; intros D n0 q cs n' tse toks H HT; cbn [ShCall.deep] in D; try discriminate D; inversion H; subst;
    try (apply LEAF; [exact HT|reflexivity]; fail); cbn [ShCall.test] in HT.
  - destruct (IHe D _ _ _ _ _ _ ltac:(eassumption) HT) as [r0 [tse' [A [B [C [E [F G]]]]]]].
    exists r0, tse'. split; [exact A|]. split; [exact B|]. split; [exact C|]. split; [exact E|]. split; [|reflexivity].
    right. split; [|reflexivity]. destruct F as [F|[F _]]; exact F.
  - destruct (IHe D _ _ _ _ _ _ ltac:(eassumption) HT) as [r0 [tse' [A [B [C [E [F G]]]]]]].
    exists r0, tse'. split; [exact A|]. split; [exact B|]. split; [exact C|]. split; [exact E|]. split; [exact F|reflexivity].
  - destruct (IHe D _ _ _ _ _ _ ltac:(eassumption) HT) as [r0 [tse' [A [B [C [E [F G]]]]]]].
    exists r0, tse'. split; [exact A|]. split; [exact B|]. split; [exact C|]. split; [exact E|]. split; [exact F|].
    exact G.
Qed.
Lemma ok_value c e : deep e = false -> test_ok c e = true -> value c e = true /\ (asgs e && effs e)%bool = false.
Proof.
  induction e; cbn [ShCall.deep]; intros D K; try discriminate D; cbn [ShCall.test_ok] in K; br;
    try (split; [assumption|assumption]); try (destruct (IHe D ltac:(assumption)); split; assumption).
Qed.
Lemma ok_cast e : test_ok true e = true -> castcall e = false.
Proof. induction e; cbn [ShCall.test_ok ShCall.castcall]; intros K; br; auto. Qed.
Lemma rtest_inv r t s b m : rsimple (STest r) (t, s) b m -> fst m = t /\ exists v, reval r t s = (v, snd m) /\ b = nz v.
Proof. intros H; inversion H; subst. split; [reflexivity|]. exists v. split; [assumption|reflexivity]. Qed.
Lemma lg_star o a b s v s1 : star a s (EVl v) s1 -> 
  (nz v = negb o -> star (ELg o a b) s (EVl (b2z (negb o))) s1) /\
  (nz v = o -> forall w s2, star b s1 (EVl w) s2 -> star (ELg o a b) s (EVl (b2z (nz w))) s2).
Proof.
  intros A. split.
  - intros E. eapply star_trans; [apply lg_ctx; exact A|]. apply star_one. apply S_lg_stop. exact E.
  - intros E w s2 B. eapply star_trans; [apply lg_ctx; exact A|]. econstructor; [apply S_lg_go; exact E|].
    eapply star_trans; [apply cd_ctx; exact B|].
    replace (EVl (b2z (nz w)) : ex) with (if nz w then EVl 1 else EVl 0 : ex) by (destruct (nz w); reflexivity).
    apply star_one. apply S_cd.
Qed.
Lemma nz_b2z b : nz (b2z b) = b.
Proof. destruct b; reflexivity. Qed.
Lemma test_chain e : test_ok true e = true -> forall n r cs n' toks o, hr e n r cs n' -> test r cs = Some toks ->
  exists es, joined o es (braces o r toks) /\
    forall t s b t' s', rk o es o (t, s) b (t', s') -> exists v, star e s (EVl v) s' /\ nz v = b.
Proof.
  assert (FLAT : forall e, test_ok true e = true -> deep e = false -> forall n r cs n' toks o, hr e n r cs n' -> test r cs = Some toks ->
    exists es, joined o es (braces o r toks) /\
      forall t s b t' s', rk o es o (t, s) b (t', s') -> exists v, star e s (EVl v) s' /\ nz v = b).
  { intros e0 K D n r cs n' toks o H HT.
    destruct (nondeep e0 D n r cs n' cs toks H HT) as [r0 [tse' [A [B [C [E [F G]]]]]]].
    assert (TS : tse' = cs).
    { destruct F as [F|[F1 F2]]; [exact F|]. rewrite (ok_cast e0 K) in F2. symmetry in F2.
      rewrite F1. symmetry. exact (proj1 (nocalls _ _ _ _ _ _) _ _ _ _ _ H F2). }
    subst tse'. rewrite G, C. destruct (ok_value true e0 D K) as [V P].
    exists [pelem cs r0]. split; [constructor; apply pelem_g|]. intros t s b t' s' HK. cbn [rk] in HK. rewrite eqb_reflx in HK.
    destruct HK as [b1 [q1 [R1 [-> <-]]]]. apply pelem_run in R1. destruct R1 as [[t1 s1] [R1 R2]].
    apply rtest_inv in R2. destruct R2 as [Q1 [v [R2 ->]]]. cbn [fst snd] in Q1, R2. subst t1. rewrite E in R2.
    exists v. split; [|reflexivity]. eapply run_value; eauto. }
  induction e; intros K n0 q cs n' toks oo H HT; try (eapply FLAT; eauto; reflexivity).
  - (* && and || *)
    cbn [ShCall.test_ok] in K. br. inversion H; subst. cbn [ShCall.test] in HT.
    destruct (test ra la) as [ta|] eqn:TA; [|discriminate]. destruct (test rb lb) as [tb|] eqn:TB; [|discriminate]. injection HT as <-.
    destruct (IHe1 H0 _ _ _ _ _ isand ltac:(eassumption) TA) as [es [J1 R1]].
    destruct (IHe2 H1 _ _ _ _ _ isand ltac:(eassumption) TB) as [fs [J2 R2]].
    pose proof (joined_app _ _ _ _ _ J1 J2) as J.
    assert (RR : forall t s b t' s', rk isand (es ++ fs) isand (t, s) b (t', s') -> exists v, star (ELg isand e1 e2) s (EVl v) s' /\ nz v = b).
    { intros t s b t' s' HK. apply rk_app in HK. destruct HK as [b1 [[t1 s1] [A B]]]. destruct (R1 _ _ _ _ _ A) as [v [S1 N1]].
      destruct (lg_star isand e1 e2 s v s1 S1) as [P1 P2]. destruct (Bool.eqb b1 isand) eqn:EB.
      - apply eqb_prop in EB. subst b1. rewrite EB in B. destruct (R2 _ _ _ _ _ B) as [w [S2 N2]].
        exists (b2z (nz w)). split; [apply P2; [exact EB|exact S2]|]. rewrite nz_b2z. exact N2.
      - assert (b1 = negb isand) by (destruct b1, isand; try discriminate; reflexivity). subst b1.
        rewrite H2 in B. apply rk_stop in B. destruct B as [-> B]. inversion B; subst.
        exists (b2z (negb isand)). split; [apply P1; exact H2|apply nz_b2z]. }
    unfold ShCall.braces at 1. cbn [ShCall.strip]. destruct (Bool.eqb oo isand) eqn:EO.
    + apply eqb_prop in EO. subst oo. exists (es ++ fs). split; [exact J|exact RR].
    + exists [EGroup (LOne (chain isand (es ++ fs)))]. split.
      * constructor. constructor. constructor. apply joined_g. exact J.
      * intros t s b t' s' HK. cbn [rk] in HK. rewrite eqb_reflx in HK. destruct HK as [b1 [q1 [A [-> <-]]]].
        inversion A; subst. match goal with Q : rclist _ _ _ _ |- _ => inversion Q; subst end.
        eapply RR. eapply chain_run; eauto.
  - cbn [ShCall.test_ok] in K. br. eapply FLAT; eauto. cbn [ShCall.test_ok ShCall.deep andb negb].
    + rewrite H0. cbn [andb] in H2, H1. rewrite H2, H1. reflexivity.
  - cbn [ShCall.test_ok] in K. br. eapply FLAT; eauto. cbn [ShCall.test_ok ShCall.deep andb negb].
    + rewrite H0. cbn [andb] in H2, H1. rewrite H2, H1. reflexivity.
  - (* parentheses *)
    cbn [ShCall.test_ok] in K. inversion H; subst. cbn [ShCall.test] in HT.
    destruct (IHe K _ _ _ _ _ oo ltac:(eassumption) HT) as [es [J R1]]. exists es. split; [exact J|].
    intros t s b t' s' HK. destruct (R1 _ _ _ _ _ HK) as [v [S1 N1]]. exists v. split; [|exact N1].
    eapply star_trans; [apply pa_ctx; exact S1|]. apply star_one. apply S_pa.
Qed.
(* a whole condition with && or || at the top *)
Lemma test_top e : deep e = true -> test_ok false e = true -> forall n r cs n' tse toks, hr e n r cs n' -> test r tse = Some toks ->
  cs = Cnil /\ exists o es, joined o es toks /\
    forall t s b t' s', rk o es o (t, s) b (t', s') -> exists v, star e s (EVl v) s' /\ nz v = b.
Proof.
  induction e; cbn [ShCall.deep]; intros D K n0 q cs n' tse toks H HT; try discriminate D; inversion H; subst.
  - split; [reflexivity|]. exists isand. destruct (test_chain (ELg isand e1 e2) K _ _ _ _ toks isand H) as [es [J R1]]; [exact HT|].
    exists es. split; [|exact R1]. unfold ShCall.braces in J. cbn [ShCall.strip] in J. rewrite eqb_reflx in J. exact J.
  - cbn [ShCall.test_ok] in K. br. cbn [ShCall.test] in HT.
    destruct (IHe D H0 _ _ _ _ _ _ ltac:(eassumption) HT) as [E [o [es [J R1]]]]. split; [exact E|]. exists o, es. split; [exact J|].
    intros t s b t' s' HK. destruct (R1 _ _ _ _ _ HK) as [v [S1 N1]]. exists v. split; [|exact N1].
    eapply star_trans; [apply ca_ctx; exact S1|]. apply star_one. apply S_ca.
  - cbn [ShCall.test_ok] in K. br. cbn [ShCall.test] in HT.
    destruct (IHe D H0 _ _ _ _ _ _ ltac:(eassumption) HT) as [E [o [es [J R1]]]]. split; [exact E|]. exists o, es. split; [exact J|].
    intros t s b t' s' HK. destruct (R1 _ _ _ _ _ HK) as [v [S1 N1]]. exists v. split; [|exact N1].
    eapply star_trans; [apply pl_ctx; exact S1|]. apply star_one. apply S_pl.
  - cbn [ShCall.test_ok] in K. br. cbn [ShCall.test] in HT.
    destruct (IHe D K _ _ _ _ _ _ ltac:(eassumption) HT) as [E [o [es [J R1]]]]. split; [exact E|]. exists o, es. split; [exact J|].
    intros t s b t' s' HK. destruct (R1 _ _ _ _ _ HK) as [v [S1 N1]]. exists v. split; [|exact N1].
    eapply star_trans; [apply pa_ctx; exact S1|]. apply star_one. apply S_pa.
Qed.
Theorem comp_test_right e g toks : test_ok false e = true -> comp_test L X U O R Fn e g = Some toks ->
  exists c, gclist toks c /\
  forall t s b t' s', rclist c (t, s) b (t', s') -> exists v, star e s (EVl v) s' /\ nz v = b.
Proof.
  intros K E. unfold comp_test in E. destruct (handle L X U O R Fn e false _) as [[r g1]|] eqn:EH; [|discriminate].
  assert (V : value false e = true).
  { clear EH. destruct (deep e) eqn:D; [|apply ok_value; assumption]. revert D K. clear E.
    induction e; cbn [ShCall.deep]; intros D K; try discriminate D; cbn [ShCall.test_ok ShCall.value] in *; br; auto.
    assert (TV : forall a, test_ok true a = true -> value true a = true).
    { clear. intros a. induction a; intros K; cbn [ShCall.test_ok] in K;
        try (apply andb_prop in K; exact (proj1 K)); br; try (apply IHa; assumption).
      cbn [ShCall.value]. rewrite IHa1, IHa2 by assumption. reflexivity. }
    rewrite !TV by assumption. reflexivity. }
  destruct (proj1 (proj1 (handle_hr L X U O R Fn upure opure) e) false _ r g1 EH V) as [cs [H HC]]; [discriminate|].
  cbn [gix repl ShCall.capp] in H, HC. rewrite HC in E. destruct (calls_ok cs) eqn:CO; [|discriminate].
  destruct (test r Cnil) as [tk|] eqn:TE; [|discriminate]. injection E as <-.
  destruct (deep e) eqn:D.
  - destruct (test_top e D K _ _ _ _ _ _ H TE) as [-> [o [es [J R1]]]]. cbn [ShCall.calltoks app].
    exists (LOne (chain o es)). split; [constructor; apply joined_g; exact J|]. intros t s b t' s' HK. inversion HK; subst.
    eapply R1. eapply chain_run; eauto.
  - destruct (nondeep e D _ _ _ _ _ _ H TE) as [r0 [tse' [A [B [C [F [G _]]]]]]].
    assert (tse' = Cnil) as -> by (destruct G as [G|[G _]]; exact G). cbn [ShCall.prefixed] in C. subst tk.
    exists (seqcl cs (STest r0)). split; [apply seqcl_g|]. intros t s b t' s' HK. apply seqcl_run in HK.
    destruct HK as [[t1 s1] [R1 R2]]. apply rtest_inv in R2. destruct R2 as [Q1 [v [R2 ->]]]. cbn [fst snd] in Q1, R2. subst t1. rewrite F in R2.
    destruct (ok_value false e D K) as [_ P]. exists v. split; [|reflexivity]. eapply run_value; eauto.
Qed.
Theorem comp_value_right e g cs r : value_ok L X U O R Fn upure opure e = true -> comp_value L X U O R Fn e g = Some (cs, r) ->
  forall t s t' s' v s'', rcalls cs (t, s) (t', s') -> reval r t' s' = (v, s'') -> star e s (EVl v) s''.
Proof.
  intros K E. unfold comp_value in E. destruct (handle L X U O R Fn e false _) as [[r0 g1]|] eqn:EH; [|discriminate].
  unfold value_ok in K. br.
  destruct (proj1 (proj1 (handle_hr L X U O R Fn upure opure) e) false _ r0 g1 EH H) as [cs0 [H1 HC]]; [discriminate|].
  cbn [gix repl ShCall.capp] in H1, HC. rewrite HC in E. destruct (calls_ok cs0 && arith_ok r0)%bool eqn:CO; [|discriminate].
  br. injection E as <- <-. intros. eapply run_value; eauto.
Qed.
(* if every call returns, every list runs to its end *)
Hypothesis returns : forall f vs s, exists v s', call f vs s v s'.
Lemma simple_runs x p : exists b q, rsimple x p b q.
Proof.
  destruct p as [t s]. destruct x as [tg f a|r].
  - destruct (revals a t s) as [vs s1] eqn:E. destruct (returns f vs s1) as [v [s2 C]]. destruct tg.
    + exists true. eexists. eapply R_calltm; eassumption.
    + exists true. eexists. eapply R_callvr; eassumption.
  - destruct (reval r t s) as [v s1] eqn:E. eexists. eexists. eapply R_test. exact E.
Qed.
Lemma calls_run c : forall p, exists q, rcalls c p q.
Proof.
  induction c as [|tg f a c IH]; intros p; [eexists; constructor|].
  destruct (simple_runs (SCall tg f a) p) as [b [q R1]]. destruct (IH q) as [q' R2]. exists q'. econstructor; eassumption.
Qed.
Fixpoint elem_runs (e : elem) : forall p, exists b q, relem e p b q
with andor_runs (a : andor) : forall p, exists b q, randor a p b q
with clist_runs (c : clist) : forall p, exists b q, rclist c p b q.
Proof.
  - destruct e as [x|c]; intros p.
    + destruct (simple_runs x p) as [b [q H]]. exists b, q. constructor. exact H.
    + destruct (clist_runs c p) as [b [q H]]. exists b, q. constructor. exact H.
  - destruct a as [e|a o e]; intros p.
    + destruct (elem_runs e p) as [b [q H]]. exists b, q. constructor. exact H.
    + destruct (andor_runs a p) as [b [q H]]. destruct (Bool.eqb b o) eqn:E.
      * apply eqb_prop in E. subst b. destruct (elem_runs e q) as [b [q1 H1]]. exists b, q1. eapply R_run; eassumption.
      * assert (b = negb o) by (destruct b, o; try discriminate; reflexivity). subst b. exists (negb o), q. apply R_skip. exact H.
  - destruct c as [a|c a]; intros p.
    + destruct (andor_runs a p) as [b [q H]]. exists b, q. constructor. exact H.
    + destruct (clist_runs c p) as [b0 [q H]]. destruct (andor_runs a q) as [b [q1 H1]]. exists b, q1. econstructor; eassumption.
Qed.
End Sem.

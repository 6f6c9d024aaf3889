(** * C33: structure layout *)
From Coq Require Import ZArith List Lia Bool.
From Verif Require Import Base Layout.
Import ListNotations.
Open Scope Z_scope.

Lemma round_up_spec a n : 0 < a -> n <= round_up a n < n + a /\ (a | round_up a n).
Proof.
  intros Ha. unfold round_up. split; [|exists ((n + a - 1) / a); lia].
  pose proof (Z.div_mod (n + a - 1) a). pose proof (Z.mod_pos_bound (n + a - 1) a). lia.
Qed.
Lemma align_to_round a n : 0 < a -> 0 <= n -> align_to a n = Some (round_up a n).
Proof.
  intros Ha Hn. unfold align_to, round_up. destruct (Z.eqb_spec a 0); [lia|].
  rewrite Z.quot_div_nonneg by lia. f_equal. lia.
Qed.
Lemma round_up_id a n : 0 < a -> (a | n) -> round_up a n = n.
Proof.
  intros Ha [k ->]. unfold round_up. replace (k * a + a - 1) with (a - 1 + k * a) by lia.
  rewrite Z.div_add by lia. rewrite Z.div_small by lia. lia.
Qed.
Lemma zmax_le d l : d <= zmax d l /\ forall x, In x l -> x <= zmax d l.
Proof.
  induction l as [|y r [IH1 IH2]]; cbn [zmax]; [split; [lia|contradiction]|].
  split; [lia|]. intros x [->|H]; [lia|]. specialize (IH2 x H). lia.
Qed.

Section L.
Variable W : Z.
Hypothesis HW : W = 4 \/ W = 8.

Lemma wf_members un ms : wf W (TAgg un ms) -> ms <> [] /\ forall m, In m ms -> wf W (snd m) /\ (fst m = None -> exists un ms', snd m = TAgg un ms').
Proof.
  cbn [wf]. intros [H1 H2]. split; [exact H1|]. clear H1. induction ms as [|m r IH]; [contradiction|].
  destruct H2 as (Ha & Hb & Hc). intros m' [<-|Hin]; [auto|]. apply IH; assumption.
Qed.
Lemma align_pos t : wf W t -> 0 < alignof W t.
Proof.
  induction t as [b| |t n IH|un ms IH] using ty_ind'; cbn [alignof]; intros Hwf.
  - destruct b; cbn; lia.
  - lia.
  - apply IH, Hwf.
  - pose proof (proj1 (zmax_le 1 (map (fun m => alignof W (snd m)) ms))). lia.
Qed.

Definition sa (t : ty) : Z * Z := (sizeof W t, alignof W t).
Lemma loop_spec l : forall sum mx lg, 0 <= sum -> (forall s a, In (s, a) l -> 0 < s /\ 0 < a) ->
  agg_loop (map Some l) sum mx lg = Some (lay l sum, zmax mx (map fst l), zmax lg (map snd l)).
Proof.
  induction l as [|[s a] r IH]; intros sum mx lg Hs Hl; cbn [map agg_loop lay zmax fst snd]; [reflexivity|].
  destruct (Hl s a (or_introl eq_refl)) as [H1 H2]. destruct (Z.eqb_spec s 0); [lia|].
  rewrite align_to_round by lia. pose proof (round_up_spec a sum H2).
  rewrite IH by (try (intros; apply Hl; right; assumption); lia). f_equal. f_equal; [f_equal|].
  - destruct (Z.ltb_spec mx s).
    + clear -H0. induction (map fst r) as [|x k IH]; cbn [zmax]; lia.
    + clear -H0. induction (map fst r) as [|x k IH]; cbn [zmax]; lia.
  - destruct (Z.ltb_spec lg a).
    + clear -H0. induction (map snd r) as [|x k IH]; cbn [zmax]; lia.
    + clear -H0. induction (map snd r) as [|x k IH]; cbn [zmax]; lia.
Qed.
Lemma lay_mono l : forall o, 0 <= o -> (forall s a, In (s, a) l -> 0 < s /\ 0 < a) -> o <= lay l o.
Proof.
  induction l as [|[s a] r IH]; intros o Ho Hl; cbn [lay]; [lia|].
  destruct (Hl s a (or_introl eq_refl)) as [H1 H2]. pose proof (round_up_spec a o H2).
  etransitivity; [|apply IH]; [lia|lia|]. intros. apply Hl. now right.
Qed.
Lemma zmax_big d l x : In x l -> d <= x -> zmax d l = zmax 0 l \/ d <= 0 \/ zmax d l = zmax x l.
Proof. intros. right. right. induction l as [|y r IH]; [contradiction|]. cbn [zmax]. destruct H as [->|H]; [|specialize (IH H); lia].
  clear IH. induction r as [|z k IHk]; cbn [zmax]; lia. Qed.
Lemma zmax_1_0 l : l <> [] -> (forall x, In x l -> 0 < x) -> zmax 0 l = zmax 1 l.
Proof.
  intros Hn Hl. destruct l as [|x r]; [congruence|]. clear Hn. cbn [zmax]. specialize (Hl x (or_introl eq_refl)) as Hx.
  assert (forall r, Z.max x (zmax 0 r) = Z.max x (zmax 1 r)). { induction r0 as [|y k IH]; cbn [zmax]; lia. } apply H.
Qed.

(** The size and the alignment pnut computes are those of the ABI. *)
Lemma wl_abi t : wf W t -> wl W t = Some (sa t) /\ 0 < sizeof W t.
Proof.
  induction t as [b| |t n IH|un ms IH] using ty_ind'; intros Hwf.
  - cbn [wl sizeof sa] in *. unfold sa. cbn [sizeof alignof].
    destruct b; cbn [base_width prim_size]; cbn [wf] in Hwf; try (split; [reflexivity|lia]).
    rewrite (Hwf eq_refl). split; [reflexivity|lia].
  - unfold sa. cbn. split; [reflexivity|lia].
  - cbn [wf] in Hwf. destruct Hwf as [Hn Hw]. destruct (IH Hw) as [E P]. unfold sa in *. cbn [wl sizeof alignof]. rewrite E.
    split; [reflexivity|nia].
  - destruct (wf_members un ms Hwf) as [Hne Hm].
    assert (E : map (fun m => wl W (snd m)) ms = map Some (map (fun m => sa (snd m)) ms)).
    { rewrite map_map. apply map_ext_in. intros m Hin. rewrite Forall_forall in IH. apply (IH m Hin). apply Hm, Hin. }
    assert (HP : forall s a, In (s, a) (map (fun m => sa (snd m)) ms) -> 0 < s /\ 0 < a).
    { intros s a Hin. apply in_map_iff in Hin. destruct Hin as (m & Em & Hin). unfold sa in Em. injection Em as <- <-.
      rewrite Forall_forall in IH. split; [apply (IH m Hin), Hm, Hin|apply align_pos, Hm, Hin]. }
    set (l := map (fun m => sa (snd m)) ms) in *.
    assert (Hl : l <> []) by (unfold l; destruct ms; [congruence|discriminate]).
    assert (Ez : zmax 0 (map snd l) = zmax 1 (map snd l)).
    { apply zmax_1_0; [destruct l; [congruence|discriminate]|]. intros x Hx. apply in_map_iff in Hx. destruct Hx as ([s a] & <- & Hx). apply (HP s a Hx). }
    pose proof (proj1 (zmax_le 1 (map snd l))) as Z1. pose proof (proj1 (zmax_le 0 (map fst l))) as Z0.
    pose proof (lay_mono l 0 ltac:(lia) HP) as Z2.
    assert (Hpos : 0 < lay l 0 /\ 0 < zmax 0 (map fst l)).
    { destruct l as [|[s a] r]; [congruence|]. destruct (HP s a (or_introl eq_refl)) as [H1 H2]. split.
      - cbn [lay]. pose proof (round_up_spec a 0 H2). eapply Z.lt_le_trans; [|apply lay_mono]; [| |intros; apply HP; right; assumption]; lia.
      - cbn [map fst zmax]. lia. }
    cbn [wl]. rewrite E. unfold agg_size. rewrite loop_spec by (auto; lia). rewrite Ez.
    rewrite !align_to_round by lia. unfold sa at 1. cbn [sizeof alignof]. fold (sa).
    change (map (fun m => (sizeof W (snd m), alignof W (snd m))) ms) with l.
    replace (map (fun m => alignof W (snd m)) ms) with (map snd l) by (unfold l; rewrite map_map; reflexivity).
    split; [destruct un; reflexivity|].
    pose proof (round_up_spec (zmax 1 (map snd l)) (if un then zmax 0 (map fst l) else lay l 0) ltac:(lia)). destruct un; lia.
Qed.

(** The loop of [struct_member_offset_go] over the members from [offset] on. *)
Definition off_loop (un : bool) (x : Z) : list (option Z * ty) -> Z -> option Z :=
  fix go (ms : list (option Z * ty)) (offset : Z) : option Z :=
         match ms with
         | [] => Some (-1)
         | (nm, mt) :: r =>
             let next :=
               if un then go r offset
               else match wl W mt with
                    | None => None
                    | Some (sz, lsub) =>
                        match (if sz =? 0 then Some offset else align_to lsub offset) with
                        | None => None
                        | Some o => go r (o + sz)
                        end
                    end in
             match nm with
             | None => match member_offset W mt x with
                       | None => None
                       | Some sub => if sub =? -1 then next else Some (offset + sub)
                       end
             | Some y => if x =? y then Some offset else next
             end
         end.
Lemma member_offset_agg un ms x : member_offset W (TAgg un ms) x = off_loop un x ms 0.
Proof. reflexivity. Qed.
(** Offset and size found within one member. *)
Definition in_member (m : option Z * ty) (x : Z) (o s : Z) : Prop :=
  match fst m with
  | Some y => x = y /\ o = 0 /\ s = sizeof W (snd m)
  | None => member_offset W (snd m) x = Some o /\ 0 <= o /\ option_map (sizeof W) (member_type (snd m) x) = Some s
  end.
Definition nxt (un : bool) (m : option Z * ty) (o : Z) : Z := if un then o else round_up (alignof W (snd m)) o + sizeof W (snd m).
Fixpoint pos_of (un : bool) (l : list (option Z * ty)) (o : Z) : Z := match l with [] => o | m :: r => pos_of un r (nxt un m o) end.

Definition ty_loop (x : Z) : list (option Z * ty) -> option ty :=
  fix go (ms : list (option Z * ty)) : option ty :=
         match ms with
         | [] => None
         | (nm, mt) :: r =>
             match nm with
             | None => match member_type mt x with Some u => Some u | None => go r end
             | Some y => if x =? y then Some mt else go r
             end
         end.
Lemma member_type_agg un ms x : member_type (TAgg un ms) x = ty_loop x ms.
Proof. reflexivity. Qed.

Lemma nxt_ge un m o : 0 <= o -> wf W (snd m) -> o <= nxt un m o /\ (un = false -> o + sizeof W (snd m) <= nxt un m o).
Proof.
  intros Ho Hw. unfold nxt. destruct un; [split; [lia|discriminate]|].
  pose proof (round_up_spec (alignof W (snd m)) o (align_pos _ Hw)). destruct (wl_abi _ Hw). lia.
Qed.

(** The offset loop: not found, or found in the first member that has the name. *)
Lemma off_loop_spec un x : forall ms o, 0 <= o ->
  (forall m, In m ms -> wf W (snd m) /\ (fst m = None -> exists un ms', snd m = TAgg un ms')) ->
  (forall m, In m ms -> fst m = None -> ~ In x (mnames m) -> member_offset W (snd m) x = Some (-1) /\ member_type (snd m) x = None) ->
  (forall m, In m ms -> fst m = None -> In x (mnames m) -> exists so u, member_offset W (snd m) x = Some so /\ 0 <= so /\ member_type (snd m) x = Some u) ->
  (~ In x (flat_map mnames ms) -> off_loop un x ms o = Some (-1) /\ ty_loop x ms = None) /\
  (forall ms1 m ms2, ms = ms1 ++ m :: ms2 -> ~ In x (flat_map mnames ms1) -> In x (mnames m) ->
     exists so u, in_member m x so (sizeof W u) /\ off_loop un x ms o = Some (pos_of un ms1 o + so) /\ ty_loop x ms = Some u).
Proof.
  induction ms as [|m0 r IH]; intros o Ho Hm Hno Hyes.
  - split; [intros _; split; reflexivity|]. intros [|? ?] ? ? E; discriminate.
  - destruct (Hm m0 (or_introl eq_refl)) as [Hw0 Hagg]. destruct (nxt_ge un m0 o Ho Hw0) as [Hn _].
    destruct (IH (nxt un m0 o)) as [IH1 IH2]; [lia| | | |].
    { intros; apply Hm; now right. } { intros; apply Hno; [now right|auto..]. } { intros; apply Hyes; [now right|auto..]. }
    destruct m0 as [nm mt]. cbn [snd fst] in *.
    assert (Enext : (if un then off_loop un x r o
               else match wl W mt with
                    | None => None
                    | Some (sz, lsub) =>
                        match (if sz =? 0 then Some o else align_to lsub o) with
                        | None => None
                        | Some o' => off_loop un x r (o' + sz)
                        end
                    end) = off_loop un x r (nxt un (nm, mt) o)).
    { unfold nxt. destruct un; [reflexivity|]. destruct (wl_abi _ Hw0) as [-> Hp]. unfold sa. cbn [snd].
      destruct (Z.eqb_spec (sizeof W mt) 0); [lia|]. rewrite align_to_round; auto. apply align_pos, Hw0. }
    split.
    + intros Hx. cbn [flat_map] in Hx. rewrite in_app_iff in Hx. destruct (IH1 ltac:(tauto)) as [I1 I2].
      cbn [off_loop ty_loop]. fold (off_loop un x) (ty_loop x). rewrite Enext. destruct nm as [y|].
      * unfold mnames in Hx. cbn [fst] in Hx. destruct (Z.eqb_spec x y); [exfalso; apply Hx; left; left; auto|]. auto.
      * destruct (Hno (None, mt) (or_introl eq_refl) eq_refl) as [N1 N2]; [tauto|]. cbn [snd] in N1, N2. rewrite N1, N2. cbn. auto.
    + intros ms1 m ms2 E Hx1 Hx2. destruct ms1 as [|m1 ms1].
      * injection E as <- <-. cbn [off_loop ty_loop pos_of]. fold (off_loop un x) (ty_loop x). destruct nm as [y|].
        -- destruct Hx2 as [->|[]]. rewrite Z.eqb_refl. exists 0, mt. unfold in_member. cbn. rewrite Z.add_0_r. auto.
        -- destruct (Hyes (None, mt) (or_introl eq_refl) eq_refl Hx2) as (so & u & E1 & E2 & E3). cbn [snd] in *.
           rewrite E1, E3. destruct (Z.eqb_spec so (-1)); [lia|]. exists so, u. unfold in_member. cbn [fst snd]. rewrite E1, E3. auto.
      * injection E as <- E. cbn [flat_map] in Hx1. rewrite in_app_iff in Hx1.
        destruct (IH2 ms1 m ms2 E ltac:(tauto) Hx2) as (so & u & E1 & E2 & E3). exists so, u. split; [exact E1|].
        cbn [off_loop ty_loop pos_of]. fold (off_loop un x) (ty_loop x). rewrite Enext. destruct nm as [y|].
        -- unfold mnames in Hx1. cbn [fst] in Hx1. destruct (Z.eqb_spec x y); [exfalso; apply Hx1; left; left; auto|]. auto.
        -- destruct (Hno (None, mt) (or_introl eq_refl) eq_refl) as [N1 N2]; [tauto|]. cbn [snd] in N1, N2. rewrite N1, N2. cbn. auto.
Qed.
Lemma first_with x : forall ms : list (option Z * ty), In x (flat_map mnames ms) ->
  exists ms1 m ms2, ms = ms1 ++ m :: ms2 /\ ~ In x (flat_map mnames ms1) /\ In x (mnames m).
Proof.
  induction ms as [|m r IH]; [contradiction|]. cbn [flat_map]. rewrite in_app_iff. intros H.
  destruct (in_dec Z.eq_dec x (mnames m)) as [Hi|Hi].
  - exists [], m, r. split; [reflexivity|]. split; [intros []|exact Hi].
  - destruct H as [H|H]; [tauto|]. destruct (IH H) as (a & b & c & -> & H1 & H2). exists (m :: a), b, c.
    split; [reflexivity|]. cbn [flat_map]. rewrite in_app_iff. tauto.
Qed.
Lemma pos_of_ge un : forall ms o, 0 <= o -> (forall m, In m ms -> wf W (snd m)) -> o <= pos_of un ms o.
Proof.
  induction ms as [|m r IH]; intros o Ho Hw; cbn [pos_of]; [lia|].
  destruct (nxt_ge un m o Ho (Hw m (or_introl eq_refl))) as [H _]. etransitivity; [exact H|]. apply IH; [lia|]. intros; apply Hw; now right.
Qed.
Lemma pos_of_app un a : forall b o, pos_of un (a ++ b) o = pos_of un b (pos_of un a o).
Proof. induction a as [|m r IH]; intros b o; cbn [pos_of app]; [reflexivity|apply IH]. Qed.
Lemma pos_lay ms : forall o, pos_of false ms o = lay (map (fun m => sa (snd m)) ms) o.
Proof. induction ms as [|m r IH]; intros o; cbn [pos_of map lay]; [reflexivity|]. unfold sa at 1. cbn [nxt]. now rewrite IH. Qed.
Lemma pos_un ms : forall o, pos_of true ms o = o.
Proof. induction ms as [|m r IH]; intros o; cbn [pos_of nxt]; auto. Qed.

Lemma inside un ms1 m ms2 : wf W (TAgg un (ms1 ++ m :: ms2)) ->
  pos_of un ms1 0 + sizeof W (snd m) <= sizeof W (TAgg un (ms1 ++ m :: ms2)).
Proof.
  intros Hw. destruct (wf_members _ _ Hw) as [_ Hm].
  assert (Hwm : wf W (snd m)) by (apply Hm, in_or_app; right; now left).
  cbn [sizeof]. set (l := map (fun m => (sizeof W (snd m), alignof W (snd m))) (ms1 ++ m :: ms2)).
  pose proof (proj1 (zmax_le 1 (map snd l))) as Z1.
  etransitivity; [|apply round_up_spec; lia].
  destruct un.
  - rewrite pos_un. apply (proj2 (zmax_le 0 (map fst l))). unfold l. rewrite map_map. cbn [fst].
    apply in_map_iff. exists m. split; [reflexivity|]. apply in_or_app; right; now left.
  - change l with (map (fun m => sa (snd m)) (ms1 ++ m :: ms2)). rewrite <- pos_lay, pos_of_app. cbn [pos_of].
    assert (H0 : 0 <= pos_of false ms1 0) by (apply pos_of_ge; [lia|intros; apply Hm, in_or_app; now left]).
    destruct (nxt_ge false m _ H0 Hwm) as [H1 H2]. specialize (H2 eq_refl). etransitivity; [exact H2|].
    apply pos_of_ge; [lia|]. intros m' Hin. apply Hm, in_or_app. right. now right.
Qed.

(** Lookup is total: a name that is not a member is reported, a name that is one is found, inside the object. *)
Lemma lookup t x : wf W t -> (exists un ms, t = TAgg un ms) ->
  (~ In x (names t) -> member_offset W t x = Some (-1) /\ member_type t x = None) /\
  (In x (names t) -> exists o u, member_offset W t x = Some o /\ member_type t x = Some u /\ 0 <= o /\ o + sizeof W u <= sizeof W t).
Proof.
  induction t as [b| |t n IH|un ms IH] using ty_ind'; intros Hwf (un' & ms' & E); try discriminate. clear un' ms' E.
  destruct (wf_members _ _ Hwf) as [_ Hm]. rewrite Forall_forall in IH.
  destruct (off_loop_spec un x ms 0) as [S1 S2]; [lia|exact Hm| | |].
  { intros m Hin Hn Hx. unfold mnames in Hx. rewrite Hn in Hx. apply (IH m Hin); [apply Hm, Hin|apply Hm; auto|exact Hx]. }
  { intros m Hin Hn Hx. unfold mnames in Hx. rewrite Hn in Hx.
    destruct (proj2 (IH m Hin (proj1 (Hm m Hin)) (proj2 (Hm m Hin) Hn)) Hx) as (o & u & E1 & E2 & E3 & _). eauto 6. }
  split; [exact S1|]. intros Hx.
  destruct (first_with x ms Hx) as (ms1 & m & ms2 & -> & N1 & N2). destruct (S2 _ _ _ eq_refl N1 N2) as (so & u & I & E1 & E2).
  exists (pos_of un ms1 0 + so), u. rewrite member_offset_agg, member_type_agg. split; [exact E1|]. split; [exact E2|].
  assert (Hin : In m (ms1 ++ m :: ms2)) by (apply in_or_app; right; now left).
  pose proof (inside un ms1 m ms2 Hwf). pose proof (pos_of_ge un ms1 0 ltac:(lia) ltac:(intros; apply Hm, in_or_app; now left)).
  unfold in_member in I. destruct (fst m) as [y|] eqn:Hf.
  - destruct I as (-> & -> & E). lia.
  - destruct I as (I1 & I2 & I3). unfold mnames in N2. rewrite Hf in N2.
    destruct (proj2 (IH m Hin (proj1 (Hm m Hin)) (proj2 (Hm m Hin) Hf)) N2) as (o & u' & F1 & F2 & F3 & F4).
    rewrite F1 in I1. injection I1 as ->. rewrite F2 in I3. cbn in I3. injection I3 as I3. lia.
Qed.

Lemma unique_split x (ms a : list (option Z * ty)) m b : ms = a ++ m :: b -> NoDup (flat_map mnames ms) -> In x (mnames m) ->
  ~ In x (flat_map mnames a).
Proof.
  intros -> HN Hx Ha. rewrite flat_map_app in HN. cbn [flat_map] in HN.
  apply in_split in Ha. destruct Ha as (p & q & Ep). rewrite Ep in HN. rewrite <- app_assoc in HN. cbn [app] in HN.
  apply NoDup_remove_2 in HN. apply HN. rewrite !in_app_iff. tauto.
Qed.
Lemma found un ms1 m ms2 x : wf W (TAgg un (ms1 ++ m :: ms2)) -> NoDup (flat_map mnames (ms1 ++ m :: ms2)) -> In x (mnames m) ->
  exists so u, in_member m x so (sizeof W u) /\ member_offset W (TAgg un (ms1 ++ m :: ms2)) x = Some (pos_of un ms1 0 + so) /\
    member_type (TAgg un (ms1 ++ m :: ms2)) x = Some u /\ 0 <= so /\ so + sizeof W u <= sizeof W (snd m).
Proof.
  intros Hwf HN Hx. destruct (wf_members _ _ Hwf) as [_ Hm].
  pose proof (unique_split x _ _ _ _ eq_refl HN Hx) as N1.
  destruct (off_loop_spec un x (ms1 ++ m :: ms2) 0) as [S1 S2]; [lia|exact Hm| | |].
  { intros m' Hin Hn H'. unfold mnames in H'. rewrite Hn in H'. apply (lookup (snd m') x); auto; apply Hm; auto. }
  { intros m' Hin Hn H'. unfold mnames in H'. rewrite Hn in H'.
    destruct (proj2 (lookup (snd m') x (proj1 (Hm m' Hin)) (proj2 (Hm m' Hin) Hn)) H') as (o & u & E1 & E2 & E3 & _). eauto 6. }
  destruct (S2 _ _ _ eq_refl N1 Hx) as (so & u & I & E1 & E2). exists so, u. repeat (split; [eassumption|]).
  assert (Hin : In m (ms1 ++ m :: ms2)) by (apply in_or_app; right; now left).
  unfold in_member in I. destruct (fst m) as [y|] eqn:Hf.
  - destruct I as (-> & -> & E). lia.
  - destruct I as (I1 & I2 & I3). unfold mnames in Hx. rewrite Hf in Hx.
    destruct (proj2 (lookup (snd m) x (proj1 (Hm m Hin)) (proj2 (Hm m Hin) Hf)) Hx) as (o & u' & F1 & F2 & F3 & F4).
    rewrite F1 in I1. injection I1 as ->. rewrite F2 in I3. cbn in I3. injection I3 as I3. lia.
Qed.
Lemma before_names t x y : before t x y -> In x (names t) /\ In y (names t).
Proof.
  induction 1 as [ms1 m1 ms2 m2 ms3 x y Hx Hy|un ms1 t ms2 x y H [IH1 IH2]]; cbn [names]; fold mnames;
    rewrite !in_flat_map.
  - split; [exists m1|exists m2]; (split; [|assumption]); apply in_or_app; right; [now left|right; apply in_or_app; right; now left].
  - split; exists (None, t); (split; [apply in_or_app; right; now left|assumption]).
Qed.
Lemma NoDup_app_r {A} (l r : list A) : NoDup (l ++ r) -> NoDup r.
Proof. induction l as [|x l IH]; [auto|]. cbn. intros H. apply IH. now inversion H. Qed.
Lemma NoDup_app_l {A} (l r : list A) : NoDup (l ++ r) -> NoDup l.
Proof. induction l as [|x l IH]; [constructor|]. cbn. intros H. inversion H as [|? ? H1 H2]. constructor; [|auto]. intros Hi. apply H1, in_or_app. now left. Qed.

Lemma disjoint t x y : wf W t -> NoDup (names t) -> before t x y ->
  exists ox oy ux uy, member_offset W t x = Some ox /\ member_type t x = Some ux /\ member_offset W t y = Some oy /\ member_type t y = Some uy /\
    ox + sizeof W ux <= oy.
Proof.
  intros Hwf HN H. revert Hwf HN. induction H as [ms1 m1 ms2 m2 ms3 x y Hx Hy|un ms1 t ms2 x y H IH]; intros Hwf HN.
  - destruct (wf_members _ _ Hwf) as [_ Hm]. cbn [names] in HN. fold mnames in HN.
    destruct (found false ms1 m1 (ms2 ++ m2 :: ms3) x Hwf HN Hx) as (sx & ux & _ & Ex & Tx & X1 & X2).
    assert (E : ms1 ++ m1 :: ms2 ++ m2 :: ms3 = (ms1 ++ m1 :: ms2) ++ m2 :: ms3) by (rewrite <- app_assoc; reflexivity).
    pose proof Hwf as Hwf2. rewrite E in Hwf2. pose proof HN as HN2. rewrite E in HN2.
    destruct (found false (ms1 ++ m1 :: ms2) m2 ms3 y Hwf2 HN2 Hy) as (sy & uy & _ & Ey & Ty & Y1 & Y2).
    rewrite <- E in Ey, Ty. exists (pos_of false ms1 0 + sx), (pos_of false (ms1 ++ m1 :: ms2) 0 + sy), ux, uy.
    repeat (split; [assumption|]). rewrite pos_of_app. cbn [pos_of].
    assert (H0 : 0 <= pos_of false ms1 0) by (apply pos_of_ge; [lia|intros; apply Hm, in_or_app; now left]).
    destruct (nxt_ge false m1 _ H0 ltac:(apply Hm, in_or_app; right; now left)) as [H1 H2]. specialize (H2 eq_refl).
    pose proof (pos_of_ge false ms2 (nxt false m1 (pos_of false ms1 0)) ltac:(lia)
      ltac:(intros; apply Hm, in_or_app; right; right; apply in_or_app; now left)). lia.
  - destruct (wf_members _ _ Hwf) as [_ Hm]. cbn [names] in HN. fold mnames in HN.
    assert (Hin : In (None, t) (ms1 ++ (None, t) :: ms2)) by (apply in_or_app; right; now left).
    assert (HNt : NoDup (names t)).
    { rewrite flat_map_app in HN. cbn [flat_map] in HN. apply NoDup_app_r, NoDup_app_l in HN. exact HN. }
    destruct (before_names t x y H) as [Nx Ny].
    destruct (IH (proj1 (Hm _ Hin)) HNt) as (ox & oy & ux & uy & E1 & E2 & E3 & E4 & L).
    destruct (found un ms1 (None, t) ms2 x Hwf HN Nx) as (sx & ux' & Ix & Ex & Tx & X1 & X2).
    destruct (found un ms1 (None, t) ms2 y Hwf HN Ny) as (sy & uy' & Iy & Ey & Ty & Y1 & Y2).
    unfold in_member in Ix, Iy. cbn [fst snd] in Ix, Iy. destruct Ix as (I1 & _ & I2), Iy as (J1 & _ & J2).
    rewrite E1 in I1. rewrite E3 in J1. injection I1 as <-. injection J1 as <-. rewrite E2 in I2. cbn in I2. injection I2 as I2.
    exists (pos_of un ms1 0 + ox), (pos_of un ms1 0 + oy), ux', uy'. repeat (split; [assumption|]). lia.
Qed.

Lemma abi_app ms1 m ms2 : forall o, abi_offset W (ms1 ++ m :: ms2) (List.length ms1) o = Some (round_up (alignof W (snd m)) (pos_of false ms1 o)).
Proof. induction ms1 as [|m1 r IH]; intros o; cbn [app List.length abi_offset pos_of nxt]; auto. Qed.
Lemma init_app ms1 m ms2 : forall o, (forall m, In m ms1 -> wf W (snd m)) -> (* no padding *)
  (forall a m' b, ms1 = a ++ m' :: b -> (alignof W (snd m') | pos_of false a o)) ->
  init_offset W (ms1 ++ m :: ms2) (List.length ms1) o = Some (pos_of false ms1 o).
Proof.
  induction ms1 as [|m1 r IH]; intros o Hw Hp; cbn [app List.length init_offset pos_of]; [reflexivity|].
  unfold type_width. destruct (wl_abi _ (Hw m1 (or_introl eq_refl))) as [-> _]. cbn [option_map fst sa].
  assert (E : nxt false m1 o = o + sizeof W (snd m1)).
  { unfold nxt. rewrite round_up_id; [reflexivity|apply align_pos, Hw; now left|]. apply (Hp [] m1 r eq_refl). }
  rewrite <- E. apply IH; [intros; apply Hw; now right|]. intros a m' b ->. apply (Hp (m1 :: a) m' b eq_refl).
Qed.
End L.

(** ** Theorems.  [W] is the target's word size. *)

(** Sizes (what [sizeof] and array strides use) are those of the ABI, and a multiple of the alignment. *)
Theorem c33_size (W : Z) (t : ty) : W = 4 \/ W = 8 -> wf W t ->
  type_width W t = Some (sizeof W t) /\ type_largest_member W t = Some (alignof W t) /\
  forall un ms, t = TAgg un ms -> (alignof W t | sizeof W t).
Proof.
  intros HW Hwf. destruct (wl_abi W HW t Hwf) as [E P]. unfold type_width, type_largest_member. rewrite E.
  split; [reflexivity|]. split; [reflexivity|]. intros un ms ->. cbn [sizeof alignof].
  rewrite !map_map. cbn [snd]. apply round_up_spec. pose proof (proj1 (zmax_le 1 (map (fun m => alignof W (snd m)) ms))). lia.
Qed.
(** Every name C allows after [.] is found, with its type, inside the object; other names are reported. *)
Theorem c33_inside (W : Z) (un : bool) (ms : list (option Z * ty)) (x : Z) : W = 4 \/ W = 8 -> wf W (TAgg un ms) ->
  (In x (names (TAgg un ms)) -> exists o u, member_offset W (TAgg un ms) x = Some o /\ member_type (TAgg un ms) x = Some u /\
     0 <= o /\ o + sizeof W u <= sizeof W (TAgg un ms)) /\
  (~ In x (names (TAgg un ms)) -> member_offset W (TAgg un ms) x = Some (-1) /\ member_type (TAgg un ms) x = None).
Proof. intros HW Hwf. destruct (lookup W HW (TAgg un ms) x Hwf) as [H1 H2]; eauto. Qed.
(** Members that C keeps apart do not overlap and keep their declaration order. *)
Theorem c33_disjoint (W : Z) (t : ty) (x y : Z) : W = 4 \/ W = 8 -> wf W t -> NoDup (names t) -> before t x y ->
  exists ox oy ux uy, member_offset W t x = Some ox /\ member_type t x = Some ux /\
    member_offset W t y = Some oy /\ member_type t y = Some uy /\ ox + sizeof W ux <= oy.
Proof. intros HW. apply disjoint, HW. Qed.
(** Named members of a union start at 0. *)
Theorem c33_union (W : Z) (ms1 : list (option Z * ty)) (x : Z) (u : ty) (ms2 : list (option Z * ty)) : W = 4 \/ W = 8 ->
  wf W (TAgg true (ms1 ++ (Some x, u) :: ms2)) -> NoDup (names (TAgg true (ms1 ++ (Some x, u) :: ms2))) ->
  member_offset W (TAgg true (ms1 ++ (Some x, u) :: ms2)) x = Some 0 /\ sizeof W u <= sizeof W (TAgg true (ms1 ++ (Some x, u) :: ms2)).
Proof.
  intros HW Hwf HN. destruct (found W HW true ms1 (Some x, u) ms2 x Hwf HN) as (so & v & I & E & _); [left; reflexivity|].
  unfold in_member in I. cbn [fst snd] in I. destruct I as (_ & -> & _). rewrite pos_un in E. split; [exact E|].
  pose proof (inside W HW true ms1 (Some x, u) ms2 Hwf) as H. rewrite pos_un in H. exact H.
Qed.
(** The offset is the ABI's, hence aligned, when no padding is needed before the member.  (Missing: the general
    case, which is false.) *)
Theorem c33_aligned_partial (W : Z) (ms1 : list (option Z * ty)) (x : Z) (u : ty) (ms2 : list (option Z * ty)) (o : Z) : W = 4 \/ W = 8 ->
  wf W (TAgg false (ms1 ++ (Some x, u) :: ms2)) -> NoDup (names (TAgg false (ms1 ++ (Some x, u) :: ms2))) ->
  member_offset W (TAgg false (ms1 ++ (Some x, u) :: ms2)) x = Some o ->
  ((alignof W u | o) <-> abi_offset W (ms1 ++ (Some x, u) :: ms2) (List.length ms1) 0 = Some o).
Proof.
  intros HW Hwf HN Ho. destruct (found W HW false ms1 (Some x, u) ms2 x Hwf HN) as (so & v & I & E & _); [left; reflexivity|].
  unfold in_member in I. cbn [fst snd] in I. destruct I as (_ & -> & _). rewrite E in Ho. rewrite Z.add_0_r in Ho. injection Ho as <-.
  rewrite abi_app. cbn [snd]. destruct (wf_members W _ _ Hwf) as [_ Hm].
  pose proof (align_pos W HW u ltac:(apply (Hm (Some x, u)), in_or_app; right; now left)) as Ha. split.
  - intros H. now rewrite round_up_id.
  - intros H. injection H as H. rewrite <- H. apply round_up_spec, Ha.
Qed.
(** Member [x] of [struct { char c; int x; }] is at 1, not at a multiple of 4: the access is unaligned and differs
    from the ABI's 4. *)
Theorem c33_aligned_refuted (W : Z) : W = 4 \/ W = 8 -> let t := TAgg false [(Some 1, TBase BChar); (Some 2, TBase BInt)] in
  wf W t /\ NoDup (names t) /\ member_offset W t 2 = Some 1 /\ ~ (alignof W (TBase BInt) | 1) /\
  abi_offset W [(Some 1, TBase BChar); (Some 2, TBase BInt)] 1 0 = Some 4.
Proof.
  intros HW t. assert (Hd : ~ (4 | 1)) by (intros [k H]; lia).
  assert (NoDup (names t)) by (repeat constructor; cbn; intuition lia).
  destruct HW as [-> | ->]; (split; [cbn; intuition discriminate|]; split; [assumption|]; split; [reflexivity|]; split; [exact Hd|reflexivity]).
Qed.
(** A brace initializer stores its elements where the members are read, when no member needs padding ... *)
Theorem c33_initializer_partial (W : Z) (ms1 : list (option Z * ty)) (x : Z) (u : ty) (ms2 : list (option Z * ty)) : W = 4 \/ W = 8 ->
  wf W (TAgg false (ms1 ++ (Some x, u) :: ms2)) -> NoDup (names (TAgg false (ms1 ++ (Some x, u) :: ms2))) ->
  (forall a m b, ms1 = a ++ m :: b -> exists o, abi_offset W (ms1 ++ (Some x, u) :: ms2) (List.length a) 0 = Some o /\
      init_offset W (ms1 ++ (Some x, u) :: ms2) (List.length a) 0 = Some o) ->
  init_offset W (ms1 ++ (Some x, u) :: ms2) (List.length ms1) 0 = member_offset W (TAgg false (ms1 ++ (Some x, u) :: ms2)) x.
Proof.
  intros HW Hwf HN Hp. destruct (found W HW false ms1 (Some x, u) ms2 x Hwf HN) as (so & v & I & E & _); [left; reflexivity|].
  unfold in_member in I. cbn [fst snd] in I. destruct I as (_ & -> & _). rewrite E, Z.add_0_r.
  destruct (wf_members W _ _ Hwf) as [_ Hm].
  assert (Hw1 : forall m, In m ms1 -> wf W (snd m)) by (intros; apply Hm, in_or_app; now left).
  apply init_app; auto. 
  (* by induction on the prefix: the initializer's offset is the running end, so equality with the ABI forces divisibility *)
  intros a m b Ea. remember (List.length a) as k eqn:Ek. revert a m b Ea Ek. induction k as [k IH] using lt_wf_ind. intros a m b Ea Ek.
  destruct (Hp a m b Ea) as (o & H1 & H2).
  rewrite Ea in H1, H2. rewrite <- app_assoc in H1, H2. cbn [app] in H1, H2. rewrite abi_app in H1. rewrite init_app in H2; auto.
  - injection H1 as H1. injection H2 as H2. rewrite H2, <- H1. apply round_up_spec, align_pos; auto. apply Hw1. rewrite Ea. apply in_or_app. right. now left.
  - intros m' Hin. apply Hw1. rewrite Ea. apply in_or_app. now left.
  - intros a' m' b' Ea'. apply (IH (List.length a')) with (b := b' ++ m :: b); auto.
    + subst k. rewrite Ea', app_length. cbn. lia.
    + rewrite Ea, Ea', <- app_assoc. reflexivity.
Qed.
(** ... but with padding the element goes elsewhere: after [struct { char c; int x; char d; } s = { 1, 2, 3 };] the
    3 is stored at offset 5 while [s.d] reads offset 8. *)
Theorem c33_initializer_refuted (W : Z) : W = 4 \/ W = 8 ->
  let ms := [(Some 1, TBase BChar); (Some 2, TBase BInt); (Some 3, TBase BChar)] in
  wf W (TAgg false ms) /\ init_offset W ms 2 0 = Some 5 /\ member_offset W (TAgg false ms) 3 = Some 8.
Proof. intros [-> | ->]; (split; [cbn; intuition discriminate|split; reflexivity]). Qed.
(** An empty struct (allowed by GNU C) makes the compiler divide by zero. *)
Theorem c33_empty_refuted (W : Z) (un : bool) : type_width W (TAgg un []) = None.
Proof. reflexivity. Qed.

Example c33_example : let t := TAgg false [(Some 1, TBase BChar); (None, TAgg true [(Some 2, TBase BInt); (Some 3, TArr (TBase BShort) 3)]); (Some 4, TPtr)] in
  wf 8 t /\ NoDup (names t) /\ before t 2 4 /\ member_offset 8 t 3 = Some 1 /\ member_offset 8 t 4 = Some 12 /\ type_width 8 t = Some 24.
Proof.
  cbv zeta. split; [|split; [|split; [|repeat split]]].
  - cbn. intuition (try discriminate; try lia). eauto.
  - cbn. repeat (apply NoDup_cons; [cbn; intuition lia|]). apply NoDup_nil.
  - apply (before_here [(Some 1, TBase BChar)] (None, _) [] (Some 4, TPtr) []); left; reflexivity.
Qed.

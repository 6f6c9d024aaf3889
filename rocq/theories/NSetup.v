(** * Start-up and exit of the program *)
From Coq Require Import ZArith List Lia Bool.
From Verif Require Import Base Asm AsmProof X86 X86Proof X86Sem NMach NPtr CLang CProg NGen NSupp NBin NRun NBop NEqs NStat NJudge NRt NLink NProg.
Import ListNotations.
Open Scope Z_scope.
Ltac ups := repeat first [rewrite upd_same | rewrite upd_other by discriminate].

Section X.
Variables (W slim cb : Z) (bytes : list Z) (lab : Z -> option Z) (F : mst -> Prop).
Hypothesis HW : W = 4 \/ W = 8.
Hypothesis Hslim : 0 < slim.
Hypothesis Hcb : 0 <= cb /\ cb + zlen bytes <= MOD W.
Set Default Proof Using "HW Hslim Hcb".
Notation placed := (placed W cb bytes lab).
Notation hsize := (hsize W).
Notation wp := (wp W slim).
Notation MOD := (MOD W).
Notation codeok := (codeok cb bytes).

Lemma mods n : 0 <= n < 2 ^ 31 -> n mod MOD = n.
Proof. intros Hn. apply Z.mod_small. destruct HW as [-> | ->]; unfold X86Sem.MOD; lia. Qed.
Lemma mpos n : 0 <= n mod MOD < MOD.
Proof. apply Z.mod_pos_bound, MOD_pos, HW. Qed.
Definition zeroed (a n : Z) (m : Z -> Z) : Z -> Z := fun x => if (a <=? x) && (x <? a + n) then 0 else m x.
Lemma zero_in a n m x : a <= x < a + n -> zeroed a n m x = 0.
Proof. intros. unfold zeroed. bdestr; cbn [andb]; try lia. Qed.
Lemma zero_out a n m x : ~ (a <= x < a + n) -> zeroed a n m x = m x.
Proof. intros. unfold zeroed. bdestr; cbn [andb]; try lia. Qed.
Lemma zero_bytes a n m : bytes_ok m -> bytes_ok (zeroed a n m).
Proof. intros H x. unfold zeroed. destruct (_ && _); [lia|apply H]. Qed.
Lemma code_zero a n m : codeok m -> a + n <= cb \/ cb + zlen bytes <= a -> codeok (zeroed a n m).
Proof. intros H D. unfold NMach.codeok. eapply at_ext; [|exact H]. intros x Hx. apply zero_out. lia. Qed.

Lemma r_mmap n a r m p k f o i mp : placed p (os_allocate_memory W n ++ k) -> codeok m -> regs_ok W r -> bytes_ok m ->
  0 <= n < 2 ^ 31 -> r 4 < MOD -> (r 4 <= cb \/ cb + zlen bytes <= slim) -> (a + n <= slim \/ r 4 <= a) -> (a + n <= cb \/ cb + zlen bytes <= a) ->
  0 <= a < MOD -> cb + (p + hsize (os_allocate_memory W n)) < MOD ->
  (forall r' m' f', r' 0 = a -> r' 3 = r 3 -> r' 4 = r 4 -> regs_ok W r' -> bytes_ok m' -> codeok m' -> (forall x, a <= x < a + n -> m' x = 0) ->
     (forall x, ~ (a <= x < a + n) -> ~ (slim <= x < r 4) -> m' x = m x) ->
     wp F (MS r' m' (cb + (p + hsize (os_allocate_memory W n))) f' o i mp)) ->
  wp F (MS r m (cb + p) f o i (a :: mp)).
Proof.
  intros Hp Hc Hr Hb Hn H4 D1 D2 D3 Ha Hpc KN. unfold os_allocate_memory in *. pose proof (MOD_pos W HW) as MP.
  assert (K192 : 192 mod MOD = 192) by (apply mods; lia). assert (K9 : 9 mod MOD = 9) by (apply mods; lia). assert (Kn : n mod MOD = n) by (apply mods; lia).
  destruct (Z.eqb_spec W 4) as [EW|EW]; cbn [app] in Hp.
  - eapply wp_push; [exact Hc|exact Hp|]. intros Hl. nx Hp. set (m1 := wrb (Wn W) m (r 4 - W) (r 3)).
    assert (Hc1 : codeok m1) by (apply codeok_wrb; [exact Hc|rewrite Wn_W by exact HW; lia]).
    assert (Hb1 : bytes_ok m1) by (apply wrb_bytes, Hb).
    do 7 (eapply wp_movimm; [exact Hc1|exact Hp|]; nx Hp).
    destruct Hp as [Hd Hp]. eapply wp_h; [exact Hc1|exact Hd|]. cbn [meaning exec]. replace (W =? 4) with true by (rewrite EW; reflexivity). cbn [andb]. change (128 =? 128) with true. cbv iota.
    match goal with |- context [MS ?x m1 _ _ _ _ _] => set (r5 := x) end.
    assert (F0 : r5 0 = 192) by (unfold r5; ups; exact K192). assert (F1 : r5 1 = n) by (unfold r5; ups; exact Kn).
    assert (F4 : r5 4 = r 4 - W) by (unfold r5; ups; reflexivity).
    assert (Fr : regs_ok W r5). { unfold r5. repeat (apply regs_upd; [|apply mpos]). apply regs_upd; [exact Hr|]. specialize (Hr 4). lia. }
    clearbody r5. unfold sys32, sys. cbn [rg maps mm pc fl outp inp]. rewrite F0, F1. change (192 =? 1) with false. change (192 =? 4) with false. change (192 =? 3) with false. change (192 =? 192) with true. cbv iota.
    unfold setr. cbn [rg mm pc fl outp inp maps]. fold (zeroed a n m1).
    assert (Hc2 : codeok (zeroed a n m1)) by (apply code_zero; auto).
    eapply wp_pop; [exact Hc2|exact Hp| |]. { ups. rewrite F4. specialize (Hr 4). lia. }
    assert (Ev : rd (Wn W) (zeroed a n m1) (upd r5 0 a 4) = r 3).
    { ups. rewrite F4. erewrite rd_ext; [|intros x Hx; rewrite Wn_W in Hx by exact HW; apply zero_out; specialize (Hr 4); lia].
      unfold m1. rewrite rd_wrb_word by exact HW. apply Z.mod_small, Hr. }
    match goal with |- wp F (MS _ _ ?q _ _ _ _) => replace q with (cb + (p + hsize [HC (HPush 3); HC (HMovImm 0 192); HC (HMovImm 3 0); HC (HMovImm 1 n); HC (HMovImm 2 3); HC (HMovImm 6 34); HC (HMovImm 7 (-1));
     HC (HMovImm 5 0); HC (HInt 128); HC (HPop 3)])) by (cbn [NMach.hsize]; ring) end.
    apply KN.
    + ups. reflexivity.
    + ups. exact Ev.
    + ups. rewrite F4. lia.
    + rewrite Ev. repeat apply regs_upd; auto; ups; rewrite F4. specialize (Hr 4). lia.
    + apply zero_bytes, Hb1.
    + exact Hc2.
    + intros x Hx. apply zero_in. exact Hx.
    + intros x Hx1 Hx2. rewrite zero_out by exact Hx1. unfold m1. apply wrb_out. rewrite Wn_W by exact HW. lia.
  - assert (EW8 : W = 8) by (destruct HW; congruence).
    do 7 (eapply wp_movimm; [exact Hc|exact Hp|]; nx Hp).
    destruct Hp as [Hd Hp]. eapply wp_h; [exact Hc|exact Hd|]. cbn [meaning exec]. replace (W =? 8) with true by (rewrite EW8; reflexivity). cbv iota.
    match goal with |- context [MS ?x m _ _ _ _ _] => set (r5 := x) end.
    assert (F0 : r5 0 = 9) by (unfold r5; ups; exact K9). assert (F1 : r5 6 = n) by (unfold r5; ups; exact Kn).
    assert (F3 : r5 3 = r 3) by (unfold r5; ups; reflexivity). assert (F4 : r5 4 = r 4) by (unfold r5; ups; reflexivity).
    assert (Fr : regs_ok W r5). { unfold r5. repeat (apply regs_upd; [|apply mpos]). exact Hr. }
    clearbody r5. unfold sys64, sys. cbn [rg maps mm pc fl outp inp]. rewrite F0, F1. change (9 =? 60) with false. change (9 =? 1) with false. change (9 =? 0) with false. change (9 =? 9) with true. cbv iota.
    unfold setr, setfl. cbn [rg mm pc fl outp inp maps]. fold (zeroed a n m).
    match goal with |- wp F (MS _ _ ?q _ _ _ _) => replace q with (cb + (p + hsize [HC (HMovImm 7 0); HC (HMovImm 6 n); HC (HMovImm 2 3); HC (HMovImm 10 34); HC (HMovImm 8 (-1)); HC (HMovImm 9 0); HC (HMovImm 0 9);
     HC HSyscall])) by (cbn [NMach.hsize]; ring) end.
    apply KN.
    + ups. reflexivity.
    + ups. exact F3.
    + ups. exact F4.
    + apply regs_upd; [|exact Ha]. apply regs_upd; [exact Fr|]. cbn [NMach.hsize] in Hpc |- *. destruct (Hd _ Hc) as (_ & _ & D4 & _). pose proof (ilen_nonneg W HSyscall). lia.
    + apply zero_bytes, Hb.
    + apply code_zero; auto.
    + intros x Hx. apply zero_in. exact Hx.
    + intros x Hx1 Hx2. apply zero_out. exact Hx1.
Qed.
(** Leaving the program with the status in X. *)
Lemma r_exit v r m p k f o i mp : placed p (os_exit W ++ k) -> codeok m -> regs_ok W r -> r 0 = v -> (r 4 <= cb \/ cb + zlen bytes <= slim) ->
  (forall s s', step W slim s = Exit (v mod 256) s' -> outp s' = o -> F s) ->
  wp F (MS r m (cb + p) f o i mp).
Proof.
  intros Hp Hc Hr E0 D1 KN. unfold os_exit, syscall_3, mov_opt, reg_X in *. assert (K1 : 1 mod MOD = 1) by (apply mods; lia). assert (K60 : 60 mod MOD = 60) by (apply mods; lia).
  destruct (Z.eqb_spec W 4) as [EW|EW]; cbn [Z.leb Z.compare app] in Hp.
  - eapply wp_push; [exact Hc|exact Hp|]. intros Hl. nx Hp. set (m1 := wrb (Wn W) m (r 4 - W) (r 3)).
    assert (Hc1 : codeok m1) by (apply codeok_wrb; [exact Hc|rewrite Wn_W by exact HW; lia]).
    eapply wp_mov; [exact Hc1|exact Hp|]. nx Hp. eapply wp_movimm; [exact Hc1|exact Hp|]. nx Hp. destruct Hp as [Hd _]. destruct (Hd _ Hc1) as [Hdec _].
    apply wp_now. match goal with |- F ?s => eapply (KN s (setpc s _)) end.
    + unfold step. cbn [mm pc]. rewrite Hdec. cbn [meaning exec]. replace (W =? 4) with true by (rewrite EW; reflexivity). cbn [andb]. change (128 =? 128) with true. cbv iota.
      unfold sys32, sys, setpc. cbn [rg mm pc fl outp inp maps]. ups. rewrite K1. change (1 =? 1) with true. cbv iota. rewrite E0. reflexivity.
    + reflexivity.
  - assert (EW8 : W = 8) by (destruct HW; congruence).
    eapply wp_mov; [exact Hc|exact Hp|]. nx Hp. eapply wp_movimm; [exact Hc|exact Hp|]. nx Hp. destruct Hp as [Hd _]. destruct (Hd _ Hc) as [Hdec _].
    apply wp_now. eapply KN.
    + unfold step. cbn [mm pc]. rewrite Hdec. cbn [meaning exec]. replace (W =? 8) with true by (rewrite EW8; reflexivity). cbv iota.
      unfold sys64, sys, setpc, setr, setfl. cbn [rg mm pc fl outp inp maps]. ups. rewrite K60. change (60 =? 60) with true. cbv iota. rewrite E0. reflexivity.
    + reflexivity.
Qed.
End X.

(** * Base: shared conventions of the model.

    Characters and C integers are [Z]; strings are [list Z].
    Nothing here models a pnut function by itself. *)
From Coq Require Import ZArith List Lia Bool String Ascii.
Import ListNotations.
Open Scope Z_scope.

(** 32-bit two's complement wrap: the value an [int] holds after a computation
    whose mathematical result is [z] on the targets pnut supports. *)
Definition w32 (z : Z) : Z := (z + 2147483648) mod 4294967296 - 2147483648.

(** The unsigned reading of a 32-bit word. *)
Definition u32 (z : Z) : Z := z mod 4294967296.

Definition int_range (z : Z) : Prop := -2147483648 <= z < 2147483648.
Definition in_intb (z : Z) : bool := (-2147483648 <=? z) && (z <? 2147483648).

(** Character codes of a Coq string literal, used only to write constants. *)
Fixpoint zs (s : string) : list Z :=
  match s with
  | EmptyString => []
  | String a s' => Z.of_N (N_of_ascii a) :: zs s'
  end.

Fixpoint lookupZ {A} (l : list (Z * A)) (k : Z) : option A :=
  match l with
  | [] => None
  | (k', v) :: r => if k =? k' then Some v else lookupZ r k
  end.

(** Functional update of a total map. *)
Definition upd {A} (f : Z -> A) (k : Z) (v : A) : Z -> A :=
  fun x => if x =? k then v else f x.

Lemma upd_same {A} (f : Z -> A) k v : upd f k v k = v.
Proof. unfold upd. now rewrite Z.eqb_refl. Qed.

Lemma upd_other {A} (f : Z -> A) k v x : x <> k -> upd f k v x = f x.
Proof. unfold upd. intros H. destruct (Z.eqb_spec x k); congruence. Qed.

Lemma w32_range z : int_range (w32 z).
Proof.
  unfold w32, int_range.
  pose proof (Z.mod_pos_bound (z + 2147483648) 4294967296 ltac:(lia)). lia.
Qed.

Lemma w32_id z : int_range z -> w32 z = z.
Proof. unfold int_range, w32. intros. rewrite Z.mod_small; lia. Qed.

Lemma w32_cong z : exists k, w32 z = z + k * 4294967296.
Proof.
  unfold w32. exists (- ((z + 2147483648) / 4294967296)).
  pose proof (Z.div_mod (z + 2147483648) 4294967296 ltac:(lia)). lia.
Qed.

Lemma u32_w32 z : u32 (w32 z) = u32 z.
Proof.
  unfold u32. destruct (w32_cong z) as [k ->]. apply Z.mod_add. lia.
Qed.

Lemma w32_u32 z : w32 (u32 z) = w32 z.
Proof.
  unfold w32, u32. rewrite Z.add_mod_idemp_l by lia. reflexivity.
Qed.

Lemma u32_range z : 0 <= u32 z < 4294967296.
Proof. unfold u32. apply Z.mod_pos_bound. lia. Qed.

Lemma w32_eq_iff a b : w32 a = w32 b <-> u32 a = u32 b.
Proof.
  split; intros H.
  - rewrite <- (u32_w32 a), <- (u32_w32 b). now rewrite H.
  - rewrite <- (w32_u32 a), <- (w32_u32 b). now rewrite H.
Qed.

Lemma in_intb_spec z : in_intb z = true <-> int_range z.
Proof.
  unfold in_intb, int_range. rewrite andb_true_iff, Z.leb_le, Z.ltb_lt. tauto.
Qed.

Ltac bdestr :=
  repeat match goal with
  | |- context [ ?a =? ?b ] => destruct (Z.eqb_spec a b)
  | |- context [ ?a <? ?b ] => destruct (Z.ltb_spec a b)
  | |- context [ ?a <=? ?b ] => destruct (Z.leb_spec a b)
  | H : context [ ?a =? ?b ] |- _ => destruct (Z.eqb_spec a b)
  | H : context [ ?a <? ?b ] |- _ => destruct (Z.ltb_spec a b)
  | H : context [ ?a <=? ?b ] |- _ => destruct (Z.leb_spec a b)
  end.

(** * portable_libc/src/ctype.c: character classes *)
From Coq Require Import ZArith List Lia Bool Ascii String.
From Verif Require Import Base.
Import ListNotations.
Open Scope Z_scope.

(** ** Model (an int 1 or 0 for the value of a comparison) *)
Definition b2z (b : bool) : Z := if b then 1 else 0.
(** ctype.c:3-5 *)
Definition isdigit (c : Z) : Z := b2z ((48 <=? c) && (c <=? 57)).
(** ctype.c:7-9 *)
Definition isxdigit (c : Z) : Z := b2z (negb (isdigit c =? 0) || ((97 <=? c) && (c <=? 102)) || ((65 <=? c) && (c <=? 70))).
(** ctype.c:22-24, 26-28, 30-32, 34-36 *)
Definition islower (c : Z) : Z := b2z ((97 <=? c) && (c <=? 122)).
Definition isupper (c : Z) : Z := b2z ((65 <=? c) && (c <=? 90)).
Definition isalpha (c : Z) : Z := Z.lor (islower c) (isupper c).
Definition isalnum (c : Z) : Z := Z.lor (isdigit c) (isalpha c).
(** ctype.c:38-42, 44-48 *)
Definition tolower (c : Z) : Z := if isupper c =? 0 then c else c + (97 - 65).
Definition toupper (c : Z) : Z := if islower c =? 0 then c else c + (65 - 97).
(** ctype.c:54-56, 58-60, 62-64 *)
Definition iscntrl (c : Z) : Z := b2z ((0 <=? c) && (c <? 32)).
Definition isgraph (c : Z) : Z := b2z ((32 <? c) && (c <? 127)).
Definition isprint (c : Z) : Z := b2z ((32 <=? c) && (c <? 127)).
(** ctype.c:66-68 *)
Definition isspace (c : Z) : Z :=
  if 32 <? c then 0 else b2z ((c =? 32) || (c =? 10) || (c =? 9) || (c =? 11) || (c =? 12) || (c =? 13)).
(** ctype.c:70-72 *)
Definition ispunct (c : Z) : Z := Z.land (Z.land (isprint c) (b2z (isspace c =? 0))) (b2z (isalnum c =? 0)).

(** ** Specification: C11 7.4 and 5.2.1, the "C" locale, ASCII *)
Definition DIGITS := zs "0123456789".
Definition LOWER := zs "abcdefghijklmnopqrstuvwxyz".
Definition UPPER := zs "ABCDEFGHIJKLMNOPQRSTUVWXYZ".
(** The graphic characters that are neither letters nor digits: 29 of them are in C's basic character set, the others are [$ @ `]. *)
Definition PUNCT := zs "!#%&'()*+,-./:;<=>?[\]^_{|}~$@`" ++ [34].
(** Space, form feed, new-line, carriage return, horizontal tab, vertical tab. *)
Definition SPACE := [32; 12; 10; 13; 9; 11].
(** The control characters of ASCII: NUL to US, and DEL. *)
Definition CNTRL := [0;1;2;3;4;5;6;7;8;9;10;11;12;13;14;15;16;17;18;19;20;21;22;23;24;25;26;27;28;29;30;31;127].

(** ** Proofs *)
Ltac lists := unfold DIGITS, LOWER, UPPER, PUNCT, SPACE, CNTRL; cbn [zs In app Z.of_N Ascii.N_of_ascii Ascii.N_of_digits N.add N.mul Pos.add Pos.mul].
Lemma b2z_nz b : b2z b <> 0 <-> b = true.
Proof. destruct b; cbn; split; congruence. Qed.
Lemma lor_nz a b : Z.lor (b2z a) (b2z b) <> 0 <-> a = true \/ b = true.
Proof. destruct a, b; cbn; intuition congruence. Qed.
Lemma in_range l c lo hi : (forall x, In x l <-> lo <= x <= hi) -> ((lo <=? c) && (c <=? hi)) = true <-> In c l.
Proof. intros H. rewrite andb_true_iff, Z.leb_le, Z.leb_le, H. lia. Qed.
Lemma in_digits x : In x DIGITS <-> 48 <= x <= 57. Proof. lists. lia. Qed.
Lemma in_lower x : In x LOWER <-> 97 <= x <= 122. Proof. lists. lia. Qed.
Lemma in_upper x : In x UPPER <-> 65 <= x <= 90. Proof. lists. lia. Qed.
Lemma in_punct x : In x PUNCT <-> 33 <= x <= 47 \/ 58 <= x <= 64 \/ 91 <= x <= 96 \/ 123 <= x <= 126. Proof. lists. lia. Qed.
Lemma in_space x : In x SPACE <-> x = 32 \/ 9 <= x <= 13. Proof. lists. lia. Qed.
Lemma in_cntrl x : In x CNTRL <-> 0 <= x <= 31 \/ x = 127. Proof. lists. lia. Qed.
Lemma isdigit_ok c : isdigit c <> 0 <-> In c DIGITS.
Proof. unfold isdigit. rewrite b2z_nz. apply in_range, in_digits. Qed.
Lemma islower_ok c : islower c <> 0 <-> In c LOWER.
Proof. unfold islower. rewrite b2z_nz. apply in_range, in_lower. Qed.
Lemma isupper_ok c : isupper c <> 0 <-> In c UPPER.
Proof. unfold isupper. rewrite b2z_nz. apply in_range, in_upper. Qed.
Lemma isalpha_ok c : isalpha c <> 0 <-> In c LOWER \/ In c UPPER.
Proof. unfold isalpha, islower, isupper. rewrite lor_nz, (in_range _ _ _ _ in_lower), (in_range _ _ _ _ in_upper). reflexivity. Qed.
Lemma isalpha_b c : exists b, isalpha c = b2z b.
Proof. unfold isalpha, islower, isupper. destruct (_ && _), (_ && _); cbn [b2z]; [exists true|exists true|exists true|exists false]; reflexivity. Qed.
Lemma isalnum_b c : exists b, isalnum c = b2z b.
Proof. unfold isalnum, isdigit. destruct (isalpha_b c) as [b ->]. destruct (_ && _), b; cbn [b2z]; [exists true|exists true|exists true|exists false]; reflexivity. Qed.
Lemma isalnum_ok c : isalnum c <> 0 <-> In c DIGITS \/ In c LOWER \/ In c UPPER.
Proof.
  rewrite <- isalpha_ok. unfold isalnum, isdigit. destruct (isalpha_b c) as [b ->]. rewrite lor_nz, (in_range _ _ _ _ in_digits), b2z_nz. reflexivity.
Qed.
Lemma isxdigit_ok c : isxdigit c <> 0 <-> In c DIGITS \/ In c (zs "abcdefABCDEF").
Proof.
  unfold isxdigit. rewrite b2z_nz, !orb_true_iff, negb_true_iff, Z.eqb_neq, isdigit_ok, !andb_true_iff, !Z.leb_le.
  cbn [zs In Z.of_N Ascii.N_of_ascii Ascii.N_of_digits N.add N.mul Pos.add Pos.mul]. intuition lia.
Qed.
Lemma isspace_ok c : isspace c <> 0 <-> In c SPACE.
Proof.
  rewrite in_space. unfold isspace. destruct (Z.ltb_spec 32 c); [intuition lia|]. rewrite b2z_nz, !orb_true_iff, !Z.eqb_eq. lia.
Qed.
Lemma isprint_ok c : isprint c <> 0 <-> In c DIGITS \/ In c LOWER \/ In c UPPER \/ In c PUNCT \/ c = 32.
Proof. unfold isprint. rewrite b2z_nz, andb_true_iff, Z.leb_le, Z.ltb_lt, in_digits, in_lower, in_upper, in_punct. lia. Qed.
Lemma isgraph_ok c : isgraph c <> 0 <-> In c DIGITS \/ In c LOWER \/ In c UPPER \/ In c PUNCT.
Proof. unfold isgraph. rewrite b2z_nz, andb_true_iff, !Z.ltb_lt, in_digits, in_lower, in_upper, in_punct. lia. Qed.
Lemma ispunct_ok c : ispunct c <> 0 <-> In c PUNCT.
Proof.
  assert (E : ispunct c <> 0 <-> isprint c <> 0 /\ isspace c = 0 /\ isalnum c = 0).
  { unfold ispunct, isprint. destruct ((32 <=? c) && (c <? 127)), (Z.eqb_spec (isspace c) 0), (Z.eqb_spec (isalnum c) 0); cbn; intuition congruence. }
  rewrite E, isprint_ok. destruct (Z.eq_dec (isspace c) 0) as [Hs|Hs], (Z.eq_dec (isalnum c) 0) as [Ha|Ha].
  all: pose proof (isspace_ok c) as S1; pose proof (isalnum_ok c) as A1; rewrite in_space in S1; rewrite in_digits, in_lower, in_upper in *; rewrite in_punct; intuition lia.
Qed.
Lemma iscntrl_ok c : c <> 127 -> iscntrl c <> 0 <-> In c CNTRL.
Proof. intros H. rewrite in_cntrl. unfold iscntrl. rewrite b2z_nz, andb_true_iff, Z.leb_le, Z.ltb_lt. lia. Qed.

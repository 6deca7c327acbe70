(** Well-formed UTF-8, as in table 3-7 of the Unicode standard. *)
From Coq Require Import List ZArith.
Import ListNotations.
Open Scope Z_scope.

Definition tail_byte (b : Z) : Prop := 128 <= b <= 191.

(** The byte sequences encoding one Unicode scalar value. *)
Inductive utf8_char : list Z -> Prop :=
| u1 : forall a, 0 <= a <= 127 -> utf8_char [a]
| u2 : forall a b, 194 <= a <= 223 -> tail_byte b -> utf8_char [a; b]
| u3a : forall b c, 160 <= b <= 191 -> tail_byte c -> utf8_char [224; b; c]
| u3b : forall a b c, 225 <= a <= 236 \/ 238 <= a <= 239 -> tail_byte b -> tail_byte c -> utf8_char [a; b; c]
| u3c : forall b c, 128 <= b <= 159 -> tail_byte c -> utf8_char [237; b; c]
| u4a : forall b c d, 144 <= b <= 191 -> tail_byte c -> tail_byte d -> utf8_char [240; b; c; d]
| u4b : forall a b c d, 241 <= a <= 243 -> tail_byte b -> tail_byte c -> tail_byte d -> utf8_char [a; b; c; d]
| u4c : forall b c d, 128 <= b <= 143 -> tail_byte c -> tail_byte d -> utf8_char [244; b; c; d].

Definition utf8 (s : list Z) : Prop := exists cs, Forall utf8_char cs /\ s = concat cs.

(** * Equality of numbers in binary64, the two zeros being identified *)

From Coq Require Import SpecFloat.

Definition same (x y : spec_float) : Prop := x = y \/ exists s t, x = S754_zero s /\ y = S754_zero t.
Definition same2 (P Q : spec_float * spec_float) : Prop := same (fst P) (fst Q) /\ same (snd P) (snd Q).

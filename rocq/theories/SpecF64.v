(** * Binary64 numbers: meaning of Coq's [spec_float], independent of the operations

    [spec_float] (standard library, [Coq.Floats.SpecFloat]) represents the values of an IEEE 754
    format: signed zeros, infinities, one NaN, and [S754_finite s m e] for (-1)^s * m * 2^e. *)

From Coq Require Import Reals ZArith SpecFloat.
Local Open Scope R_scope.

Notation prec := 53%Z.
Notation emax := 1024%Z.

(** Powers of two. *)
Definition bp (e : Z) : R := powerRZ 2 e.

Definition is_finite (x : spec_float) : bool := match x with S754_zero _ | S754_finite _ _ _ => true | _ => false end.

(** The values that exist in the format: the mantissa has 53 bits (or the exponent is the
    smallest one) and the exponent is at most 971. *)
Definition valid64 (x : spec_float) : Prop := valid_binary prec emax x = true.

(** A finite binary64 number. *)
Definition fin (x : spec_float) : Prop := valid64 x /\ is_finite x = true.

Definition sgnR (s : bool) : R := if s then -1 else 1.

(** The real number represented. *)
Definition SF2R (x : spec_float) : R := match x with S754_finite s m e => sgnR s * (IZR (Zpos m) * bp e) | _ => 0 end.

(** Unit roundoff 2^-53 and half of the smallest positive number. *)
Definition u64 : R := bp (-53).
Definition eta64 : R := bp (-1075).

(** [z] is a nearest binary64 number of the real number [r] (with the usual error bounds). *)
Definition rounds (z : spec_float) (r : R) : Prop :=
  valid64 z /\ is_finite z = true /\
  (forall w, valid64 w -> is_finite w = true -> Rabs (SF2R z - r) <= Rabs (SF2R w - r)) /\
  Rabs (SF2R z - r) <= u64 * Rabs r + eta64 /\
  (bp (-1022) <= Rabs r -> Rabs (SF2R z - r) <= u64 * Rabs r).

(** Points with finite coordinates, bounds of the coordinates, the exact point, the square of
    the exact distance. *)
Definition fin2 (P : spec_float * spec_float) : Prop := fin (fst P) /\ fin (snd P).
Definition within (b : R) (P : spec_float * spec_float) : Prop := Rabs (SF2R (fst P)) <= b /\ Rabs (SF2R (snd P)) <= b.
Definition P2R (P : spec_float * spec_float) : R * R := (SF2R (fst P), SF2R (snd P)).
Definition d2R (P Q : spec_float * spec_float) : R :=
  (SF2R (fst P) - SF2R (fst Q)) * (SF2R (fst P) - SF2R (fst Q)) + (SF2R (snd P) - SF2R (snd Q)) * (SF2R (snd P) - SF2R (snd Q)).

(** A finite point whose coordinates are at most 2^500 (about 3e150): far from overflow. *)
Definition moderate (P : spec_float * spec_float) : Prop := fin2 P /\ within (bp 500) P.

(** What is assumed of the cosine and sine of the C library: the error is at most one unit in
    the last place of 1 (in practice it is smaller). *)
Definition libm_cos_sin (cosf sinf : spec_float -> spec_float) : Prop :=
  forall x, fin x ->
    fin (cosf x) /\ Rabs (SF2R (cosf x) - cos (SF2R x)) <= 2 * u64 /\
    fin (sinf x) /\ Rabs (SF2R (sinf x) - sin (SF2R x)) <= 2 * u64.

(** [x] is a multiple of 2^g, at most [N] * 2^g in absolute value: with g = 0 an integer. *)
Definition on_grid (g N : Z) (x : spec_float) : Prop := fin x /\ exists n, (Z.abs n <= N)%Z /\ SF2R x = IZR n * bp g.
Definition on_grid2 (g N : Z) (P : spec_float * spec_float) : Prop := on_grid g N (fst P) /\ on_grid g N (snd P).

(** The binary64 number nearest to an integer, and the one written as the decimal n / d (both
    exact, so the division rounds once): 0.3 is [fq 3 10]. *)
Definition fz (n : Z) : spec_float := binary_normalize prec emax n 0 false.
Definition fq (n d : Z) : spec_float := SFdiv prec emax (fz n) (fz d).

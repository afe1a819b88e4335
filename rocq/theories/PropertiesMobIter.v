(** * C122: iterating a Möbius transformation. *)

From Coq Require Import Reals Lra List Bool ZArith.
From Verif Require Import Base BaseLemmas Spec SpecMobius SpecIter ModelMobius PMobius PMobius2 PMobIter PMobIter2.
Import ListNotations.
Local Open Scope R_scope.

(** With two finite fixed points [z] and [w], the [n]-th power multiplies the ratio
    [(p - z) / (p - w)] by the [n]-th power of one number, whose modulus rules the distances. *)
Theorem C122_ratio : forall M n Mn z w p p', mdet M <> C0 -> z <> w -> transform M (Pt z) = Ok (Pt z) -> transform M (Pt w) = Ok (Pt w) ->
  power M (IZR (Z.of_nat n)) = Ok Mn -> transform Mn (Pt p) = Ok (Pt p') ->
  ((p' - z) * (p - w) * cpow_nat (mc M * z + md M) n = cpow_nat (mc M * w + md M) n * (p - z) * (p' - w))%C /\
  dist p' z * dist p w * cnorm (mc M * z + md M)%C ^ n = cnorm (mc M * w + md M)%C ^ n * dist p z * dist p' w.
Proof. exact iter_ratio. Qed.
Print Assumptions C122_ratio.

(** One of them attracts, uniformly outside any neighbourhood of the other, infinity included. *)
Theorem C122_attracting : forall M z w, mdet M <> C0 -> z <> w -> transform M (Pt z) = Ok (Pt z) -> transform M (Pt w) = Ok (Pt w) ->
  cnorm (mc M * w + md M)%C < cnorm (mc M * z + md M)%C ->
  forall d eps, 0 < d -> 0 < eps -> exists N, forall n Mn P, (N <= n)%nat -> power M (IZR (Z.of_nat n)) = Ok Mn ->
    match P with Inf => True | Pt p => d <= dist p w end -> exists p', transform Mn P = Ok (Pt p') /\ dist p' z < eps.
Proof. exact attracting. Qed.
Print Assumptions C122_attracting.

(** The negative powers attract to the other one. *)
Theorem C122_repelling : forall M z w, mdet M <> C0 -> z <> w -> transform M (Pt z) = Ok (Pt z) -> transform M (Pt w) = Ok (Pt w) ->
  cnorm (mc M * w + md M)%C < cnorm (mc M * z + md M)%C ->
  forall d eps, 0 < d -> 0 < eps -> exists N, forall n Mn P, (N <= n)%nat -> power M (IZR (- Z.of_nat n)) = Ok Mn ->
    match P with Inf => True | Pt p => d <= dist p z end -> exists p', transform Mn P = Ok (Pt p') /\ dist p' w < eps.
Proof. exact repelling. Qed.
Print Assumptions C122_repelling.

(** When the two numbers have the same modulus every power keeps the circles of Apollonius of the
    fixed points, and this is so exactly when the square of the trace is the determinant times a
    real number between 0 and 4. *)
Theorem C122_neutral : forall M z w, mdet M <> C0 -> z <> w -> transform M (Pt z) = Ok (Pt z) -> transform M (Pt w) = Ok (Pt w) ->
  (cnorm (mc M * w + md M)%C = cnorm (mc M * z + md M)%C <-> exists s, 0 <= s <= 4 /\ ((ma M + md M) * (ma M + md M) = RtoC s * mdet M)%C) /\
  (cnorm (mc M * w + md M)%C = cnorm (mc M * z + md M)%C -> forall k Mk p p', power M (IZR k) = Ok Mk -> transform Mk (Pt p) = Ok (Pt p') ->
    dist p' z * dist p w = dist p z * dist p' w).
Proof. exact (fun M z w HD N Hz Hw => conj (trace_neutral M z w HD N Hz Hw) (fun HL k Mk p p' HP HT => neutral M k Mk z w p p' HD N Hz Hw HL HP HT)). Qed.
Print Assumptions C122_neutral.

(** A power is the identity exactly when the [n]-th powers of the two numbers agree. *)
Theorem C122_period : forall M n Mn z w, mdet M <> C0 -> z <> w -> transform M (Pt z) = Ok (Pt z) -> transform M (Pt w) = Ok (Pt w) ->
  power M (IZR (Z.of_nat n)) = Ok Mn -> ((forall P, transform Mn P = Ok P) <-> (cpow_nat (mc M * w + md M) n = cpow_nat (mc M * z + md M) n)%C).
Proof. exact period. Qed.
Print Assumptions C122_period.

(** With one fixed point, a finite one: the inverse of [p - z] moves by a constant at each step, and
    all large powers, positive or negative, send everything outside a neighbourhood of [z] close to [z]. *)
Theorem C122_parabolic : forall M z, mdet M <> C0 -> transform M (Pt z) = Ok (Pt z) -> (forall P, transform M P = Ok P -> P = Pt z) ->
  (forall n Mn p p', power M (IZR (Z.of_nat n)) = Ok Mn -> transform Mn (Pt p) = Ok (Pt p') -> p <> z ->
    p' <> z /\ (C1 / (p' - z) = C1 / (p - z) + RtoC (INR n) * mc M / (mc M * z + md M))%C) /\
  (forall d eps, 0 < d -> 0 < eps -> exists N, forall k Mk P, (N <= Z.abs k)%Z -> power M (IZR k) = Ok Mk ->
    match P with Inf => True | Pt p => d <= dist p z end -> exists p', transform Mk P = Ok (Pt p') /\ dist p' z < eps).
Proof. exact (fun M z HD Hz HU => conj (fun n Mn p p' HP HT NP => parabolic_formula M n Mn z p p' HD Hz HU HP HT NP) (parabolic_attract_Z M z HD Hz HU)). Qed.
Print Assumptions C122_parabolic.

(** Similarities: powers about the centre; translations: multiples of the vector. *)
Theorem C122_affine : forall M n Mn p, mdet M <> C0 -> mc M = C0 -> power M (IZR (Z.of_nat n)) = Ok Mn ->
  (forall z, transform M (Pt z) = Ok (Pt z) -> exists p', transform Mn (Pt p) = Ok (Pt p') /\ (cpow_nat (md M) n * (p' - z) = cpow_nat (ma M) n * (p - z))%C) /\
  (ma M = md M -> transform Mn (Pt p) = Ok (Pt (p + RtoC (INR n) * (mb M / md M))%C)).
Proof. exact (fun M n Mn p HD Hc HP => conj (fun z Hz => affine_pow M n Mn z p HD Hc Hz HP) (fun Ha => translation_pow M n Mn p HD Hc Ha HP)). Qed.
Print Assumptions C122_affine.

(** Non-vacuity: [z / (z + 2)] attracts to 0 and away from -1; [- 1 / z] is of order 2 with fixed points i and -i;
    [z / (z + 1)] has the single fixed point 0; [z + 1] is a translation and [2 z] a similarity. *)
Example C122_example :
  let H := mkMob C1 C0 C1 (RtoC 2) in let E := mkMob C0 (RtoC (-1)) C1 C0 in let Q := mkMob C1 C0 C1 C1 in
  (mdet H <> C0 /\ ((0, 0) : pt) <> (-1, 0) /\ transform H (Pt (0, 0)) = Ok (Pt (0, 0)) /\ transform H (Pt (-1, 0)) = Ok (Pt (-1, 0)) /\ cnorm (mc H * (-1, 0) + md H)%C < cnorm (mc H * (0, 0) + md H)%C) /\
  (mdet E <> C0 /\ ((0, 1) : pt) <> (0, -1) /\ transform E (Pt (0, 1)) = Ok (Pt (0, 1)) /\ transform E (Pt (0, -1)) = Ok (Pt (0, -1)) /\
    (cpow_nat (mc E * (0, 1) + md E) 2 = cpow_nat (mc E * (0, -1) + md E) 2)%C /\ cpow_nat (mc E * (0, 1) + md E)%C 1 <> cpow_nat (mc E * (0, -1) + md E)%C 1) /\
  (mdet Q <> C0 /\ transform Q (Pt (0, 0)) = Ok (Pt (0, 0)) /\ forall P, transform Q P = Ok P -> P = Pt (0, 0)) /\
  (forall M n, exists Mn, power M (IZR (Z.of_nat n)) = Ok Mn).
Proof. exact iter_example. Qed.

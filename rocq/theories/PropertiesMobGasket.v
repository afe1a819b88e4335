(** * C99, the gasket moved by powers of a Möbius transformation
    (examples/ApollonianGasketMobius.py).  Every proof is one line; the work is in PDisc.v,
    PMobGasket1.v, PMobGasket2.v, PMobGasketEx.v. *)

From Coq Require Import Reals List Bool ZArith.
From Verif Require Import Base BaseLemmas Spec SpecMobius SpecTriangle SpecGasket SpecApollonian SpecMobiusGasket ModelInternal ModelLine ModelCircle ModelEllipse ModelInversion ModelMobius ModelApollonian ModelModular ModelMobiusGasket
  PMobGasket2 PMobGasketEx.
Import ListNotations.
Local Open Scope R_scope.

(** a group, of period 2 on the points *)
Theorem C99_powers gamma : Cmod2 gamma < 1 -> exists F, (forall t, mobius_power gamma t = Ok (F t)) /\ (forall s t, matmul (F s) (F t) = F (s + t)) /\
  F 0 = mkMob C1 C0 C0 C1 /\ F 1 = mkMob Ci gamma (Cconj gamma) (- Ci)%C /\ (forall t P, transform (F (t + 2)) P = transform (F t) P).
Proof. exact (power_group gamma). Qed.
Print Assumptions C99_powers.

Theorem C99_powers_domain gamma t : (Cmod2 gamma = 1 -> mobius_power gamma t = Raise ZeroDivisionError) /\ (1 < Cmod2 gamma -> mobius_power gamma t = Raise ValueError).
Proof. exact (power_domain gamma t). Qed.
Print Assumptions C99_powers_domain.

Theorem C99_powers_disc gamma t M z : Cmod2 gamma < 1 -> mobius_power gamma t = Ok M ->
  (Cmod2 z < 1 -> exists w, mob_image (ma M) (mb M) (mc M) (md M) (Pt z) (Pt w) /\ Cmod2 w < 1) /\
  (Cmod2 z = 1 -> exists w, mob_image (ma M) (mb M) (mc M) (md M) (Pt z) (Pt w) /\ Cmod2 w = 1).
Proof. exact (power_disc gamma t M z). Qed.
Print Assumptions C99_powers_disc.

(** every picture is a packing, the image of the gasket *)
Theorem C99_picture fuel n phi shift depth gamma t gens : (3 <= n)%Z -> Rabs phi < 1 -> (2 <= depth)%nat -> Cmod2 gamma < 1 ->
  apollonian_gasket (mkCircle (0, 0) 1) n phi shift depth = Ok gens ->
  exists M pic, mobius_power gamma t = Ok M /\ mobius_picture fuel gamma gens t = Some (Ok pic) /\ packing (Z.to_nat n) depth pic /\
    Forall2 (Forall2 (fun c c' => forall w, dist (cO c') w < cr c' <-> exists z, dist (cO c) z < cr c /\ mob_image (ma M) (mb M) (mc M) (md M) (Pt z) (Pt w))) gens pic.
Proof. exact (picture_spec fuel n phi shift depth gamma t gens). Qed.
Print Assumptions C99_picture.

Theorem C99_loop fuel n phi shift depth gamma gens t : (3 <= n)%Z -> Rabs phi < 1 -> (2 <= depth)%nat -> Cmod2 gamma < 1 ->
  apollonian_gasket (mkCircle (0, 0) 1) n phi shift depth = Ok gens ->
  mobius_picture fuel gamma gens 0 = Some (Ok gens) /\ mobius_picture fuel gamma gens (t + 2) = mobius_picture fuel gamma gens t.
Proof. exact (picture_loop fuel n phi shift depth gamma gens t). Qed.
Print Assumptions C99_loop.

(** the values of the program: all pictures, for every depth *)
Theorem C99_script fuel depth ts : (2 <= depth)%nat -> exists pics, mobius_gasket fuel 3 (1 / 4) 0 depth (6 / 10, 4 / 10) ts = Some (Ok pics) /\ length pics = length ts /\ Forall (packing 3 depth) pics.
Proof. exact (script_ok fuel depth ts). Qed.
Print Assumptions C99_script.

Example C99_example : (2 <= 5)%nat /\ exists gens, apollonian_gasket (mkCircle (0, 0) 1) 3 (1 / 4) 0 5 = Ok gens.
Proof. exact (conj (le_S _ _ (le_S _ _ (le_S _ _ (le_n 2)))) (u_gasket 5)). Qed.

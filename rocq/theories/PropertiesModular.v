(** * C60 (discs) and C98, the modular tessellation of the unit disc (examples/ModularTessellation.py and
    ModularTessellation_animation.py).  Every proof is one line; the work is in PDisc.v and
    PModular1.v to PModular4.v. *)

From Coq Require Import Reals List Bool ZArith.
From Verif Require Import Base BaseLemmas Spec SpecMobius SpecTriangle SpecGasket SpecModular ModelInternal ModelLine ModelCircle ModelInversion ModelMobius ModelFarey ModelModular
  PMobius PMobius2 PModular4.
Import ListNotations.
Local Open Scope R_scope.

(** for every argument function and every eigendecomposition of the matrix R *)
Theorem C98_tessellation fuel arg eig n u : is_arg arg ->
  (let '(l1, l2, V) := eig mobR in is_eigen (ma mobR) (mb mobR) (mc mobR) (md mobR) l1 l2 (ma V) (mb V) (mc V) (md V)) ->
  (1 <= n)%Z ->
  exists Ru l, gpower arg eig (mkMob C0 (RtoC (-1)) C1 C1) u = Ok Ru /\ modular_tessellation fuel arg eig n u = Some (Ok l) /\
    (forall k, In k l -> exists a b c d, modular_matrix n a b c d /\ is_tile (ma Ru) (mb Ru) (mc Ru) (md Ru) a b c d k) /\
    ((2 <= n)%Z -> forall a b c d, modular_matrix n a b c d -> exists k, In k l /\ is_tile (ma Ru) (mb Ru) (mc Ru) (md Ru) a b c d k) /\
    (forall k k', In k l -> In k' l -> k = k' \/ not_overlapping k k') /\
    (forall k, In k l -> dist (0, 0) (cO k) + cr k < 1) /\
    (forall k, In k l -> exists k', In k' l /\ circles_touch k k').
Proof. exact (tessellation fuel arg eig n u). Qed.
Print Assumptions C98_tessellation.

Theorem C98_period fuel arg eig n u : is_arg arg ->
  (let '(l1, l2, V) := eig mobR in is_eigen (ma mobR) (mb mobR) (mc mobR) (md mobR) l1 l2 (ma V) (mb V) (mc V) (md V)) ->
  modular_tessellation fuel arg eig n (u + 3) = modular_tessellation fuel arg eig n u.
Proof. exact (tessellation_period fuel arg eig n u). Qed.
Print Assumptions C98_period.

(** the matrices are changed in place by every picture; all pictures are nevertheless complete *)
Theorem C98_animation fuel arg eig n us : is_arg arg ->
  (let '(l1, l2, V) := eig mobR in is_eigen (ma mobR) (mb mobR) (mc mobR) (md mobR) l1 l2 (ma V) (mb V) (mc V) (md V)) ->
  (1 <= n)%Z ->
  exists pics, modular_animation fuel arg eig n us = Some (Ok pics) /\
    Forall2 (fun u pic => exists l, modular_tessellation fuel arg eig n u = Some (Ok l) /\ forall k, In k pic <-> In k l) us pics.
Proof. exact (animation fuel arg eig n us). Qed.
Print Assumptions C98_animation.

Theorem C98_raise fuel arg eig n u : (n < 1)%Z -> modular_tessellation fuel arg eig n u = Some (Raise ValueError).
Proof. exact (tessellation_raise fuel arg eig n u). Qed.
Print Assumptions C98_raise.

Example C98_example : exists arg eig l, is_arg arg /\
  (let '(l1, l2, V) := eig mobR in is_eigen (ma mobR) (mb mobR) (mc mobR) (md mobR) l1 l2 (ma V) (mb V) (mc V) (md V)) /\
  modular_tessellation 0 arg eig 8 0 = Some (Ok l) /\ In (mkCircle (0, 1 / 6) (1 / 6)) l /\ In (mkCircle (0, - (1 / 6)) (1 / 6)) l.
Proof. exact tessellation_ex. Qed.

(** ** C60: the disc of a circle goes to the disc of its image when it does not contain the
    point sent to infinity *)
Theorem C60_disc fuel M c : mdet M <> C0 -> 0 < cr c -> (forall z, dist (cO c) z <= cr c -> ~ mob_image (ma M) (mb M) (mc M) (md M) (Pt z) Inf) ->
  exists c', transform_circle fuel M c = Some (Ok (GC c')) /\ 0 < cr c' /\
    (forall w, dist (cO c') w < cr c' <-> exists z, dist (cO c) z < cr c /\ mob_image (ma M) (mb M) (mc M) (md M) (Pt z) (Pt w)) /\
    (forall w, dist (cO c') w <= cr c' <-> exists z, dist (cO c) z <= cr c /\ mob_image (ma M) (mb M) (mc M) (md M) (Pt z) (Pt w)).
Proof. exact (disc_image_spec fuel M c). Qed.
Print Assumptions C60_disc.

Example C60_disc_example : let M := mkMob Ci C1 C1 Ci in let c := mkCircle (0, 3 / 2) (1 / 2) in
  mdet M <> C0 /\ 0 < cr c /\ forall z, dist (cO c) z <= cr c -> ~ mob_image (ma M) (mb M) (mc M) (md M) (Pt z) Inf.
Proof. exact disc_image_ex. Qed.

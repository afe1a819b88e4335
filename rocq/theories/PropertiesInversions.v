(** * C104: the images of five circles by the inversions on them (examples/Inversions.py). *)

From Coq Require Import Reals Lra Lia List ZArith.
From Verif Require Import Base Spec ModelLine ModelCircle ModelInversion ModelInversions SpecInversions PInversions1 PInversions5.
Import ListNotations.
Local Open Scope R_scope.

(** The generations: the five circles, then, in this order, the images of the objects of the previous
    generation by the inversions on the circles other than the last one that was used. *)
Theorem C104_generations : forall m, (m <= 4)%nat -> exists gens, inv_generations m = Ok gens /\ length gens = S m /\
  nth_error gens 0 = Some (combine (map GC five_circles) [0; 1; 2; 3; 4]%nat) /\
  (forall k g h, nth_error gens k = Some g -> nth_error gens (S k) = Some h -> Forall2 moved (moves g) h) /\
  (forall k g, nth_error gens k = Some g -> length g = (5 * 4 ^ k)%nat).
Proof. exact generations_ok. Qed.
Print Assumptions C104_generations.

(** Twice the curvature of a circle is an integer, and so are the coordinates of the centre times the
    curvature; the lines are x = e or y = e with an integer e. *)
Theorem C104_integers : forall m gens g, (m <= 4)%nat -> inv_generations m = Ok gens -> In g (map fst (concat gens)) ->
  match g with
  | GC c => exists a b k, k <> 0%Z /\ 1 / cr c = IZR k / 2 /\ fst (cO c) / cr c = IZR a /\ snd (cO c) / cr c = IZR b
  | GL l => exists e : Z, (forall M, gpts g M <-> fst M = IZR e) \/ (forall M, gpts g M <-> snd M = IZR e)
  end.
Proof. exact integers_ok. Qed.
Print Assumptions C104_integers.

(** Two of these objects never cross at an angle other than a right angle. *)
Theorem C104_pairs : forall m gens, (m <= 4)%nat -> inv_generations m = Ok gens ->
  forall g g', In g (map fst (concat gens)) -> In g' (map fst (concat gens)) ->
  same_set g g' \/ one_common g g' \/ right_angle g g'.
Proof. exact pairs_ok. Qed.
Print Assumptions C104_pairs.

(** The picture: every circle once, but only one of two opposite lines. *)
Theorem C104_picture : forall m, (m <= 4)%nat -> exists gens pic, inv_generations m = Ok gens /\ inv_picture m = Ok pic /\
  let all := map fst (concat gens) in
  (forall g, In g pic -> In g all) /\
  (forall c, In (GC c) all -> In (GC c) pic) /\
  (forall l, In (GL l) all -> exists l', In (GL l') pic /\ (same_set (GL l) (GL l') \/ opposite_lines (GL l) (GL l'))) /\
  ForallOrdPairs (fun g g' => ~ same_set g g' /\ ~ opposite_lines g g') pic.
Proof. exact picture_ok. Qed.
Print Assumptions C104_picture.

(** The picture of the program: 149 circles and the lines x = 2, y = 2, x = -6, y = -6, x = 10,
    y = 10; the lines of the generations are those and their opposites. *)
Theorem C104_three : exists gens pic, inv_generations 3 = Ok gens /\ inv_picture 3 = Ok pic /\
  length (filter is_circle pic) = 149%nat /\
  Forall2 (fun q g => axis_line (fst q) (snd q) g) [(true, 2); (false, 2); (true, -6); (false, -6); (true, 10); (false, 10)] (filter (fun g => negb (is_circle g)) pic) /\
  (forall g, In g (map fst (concat gens)) -> is_circle g = false -> exists vertical e, axis_line vertical e g /\ In (Rabs e) [2; 6; 10]) /\
  (forall vertical e, In (Rabs e) [2; 6; 10] -> exists g, In g (map fst (concat gens)) /\ axis_line vertical e g).
Proof. exact three_ok. Qed.
Print Assumptions C104_three.

(** It is not true that every object of the generations is in the picture: the line x = -2 is lost. *)
Theorem C104_all_drawn_refuted : exists gens pic g, inv_generations 3 = Ok gens /\ inv_picture 3 = Ok pic /\
  In g (map fst (concat gens)) /\ axis_line true (-2) g /\ forall g', In g' pic -> ~ same_set g g'.
Proof. exact lines_lost. Qed.
Print Assumptions C104_all_drawn_refuted.

(** One generation after the first one: twenty objects; its circles are drawn. *)
Example C104_example : exists gens pic g, inv_generations 1 = Ok gens /\ inv_picture 1 = Ok pic /\
  nth_error gens 0 = Some (combine (map GC five_circles) [0; 1; 2; 3; 4]%nat) /\ nth_error gens 1 = Some g /\ length g = 20%nat /\
  Forall2 moved (moves (combine (map GC five_circles) [0; 1; 2; 3; 4]%nat)) g /\ (forall c, In (GC c) (map fst g) -> In (GC c) pic).
Proof.
  destruct (C104_generations 1 ltac:(lia)) as (gens & E & L & H0 & H & Hl). destruct (C104_picture 1 ltac:(lia)) as (gens' & pic & E' & P & _ & C & _). rewrite E in E'. injection E' as <-.
  destruct gens as [|g0 [|g1 [|]]]; try discriminate. cbn in H0. exists [g0; g1], pic, g1. split; [exact E|]. split; [exact P|]. split; [exact H0|]. split; [reflexivity|]. split; [apply (Hl 1%nat g1 eq_refl)|]. split.
  - injection H0 as H0. subst g0. apply (H 0%nat _ g1); reflexivity.
  - intros c Hc. apply C. cbn [concat]. rewrite !map_app, !in_app_iff. auto.
Qed.

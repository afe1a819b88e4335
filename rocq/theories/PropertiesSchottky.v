(** * C103: the circles of a Schottky group (examples/Schottky.py). *)

From Coq Require Import Reals Lra Lia List.
From Verif Require Import Base Spec SpecMobius SpecGasket ModelLine ModelCircle ModelMobius ModelSchottky SpecSchottky PSchottky1 PSchottky5.
Import ListNotations.
Local Open Scope R_scope.

(** [Gn n] is the list of all the words of n letters without cancellation, each of them once. *)
Theorem C103_words : forall n, (1 <= n)%nat -> exists l, Gn n = Ok l /\
  NoDup (map transfo2seq l) /\ (forall w, In w (map transfo2seq l) <-> length w = n /\ reduced w) /\
  length l = (4 * 3 ^ (n - 1))%nat.
Proof. exact Gn_words. Qed.
Print Assumptions C103_words.

(** The starting line and circles: each of the circles of b and B touches the line and the circle of
    A, and they do not overlap.  The four transformations. *)
Theorem C103_starting : forall theta, good_theta theta -> exists s, starting theta = Ok s /\
  lA (sCa s) = (-1, 0) /\ lB (sCa s) = (1, 0) /\
  sCA s = mkCircle (0, -3 * sqrt 2 / 4) (sqrt 2 / 4) /\
  sCb s = mkCircle (ob theta) (rb theta) /\
  sCB s = mkCircle (- fst (ob theta), snd (ob theta)) (rb theta) /\
  forall x P Q, transform (Mobs s x) P = Ok Q <-> gen_map theta x P Q.
Proof. exact starting_maps. Qed.
Print Assumptions C103_starting.

Theorem C103_starting_touch : forall theta, good_theta theta ->
  snd (ob theta) = - rb theta /\
  dist (ob theta) (0, -3 * sqrt 2 / 4) = rb theta + sqrt 2 / 4 /\
  dist (- fst (ob theta), snd (ob theta)) (0, -3 * sqrt 2 / 4) = rb theta + sqrt 2 / 4 /\
  rb theta + rb theta <= dist (ob theta) (- fst (ob theta), snd (ob theta)).
Proof. exact starting_touch. Qed.
Print Assumptions C103_starting_touch.

(** The transformation of each letter sends what is outside the disc of the inverse letter to the
    disc of the letter. *)
Theorem C103_pairing : forall theta, good_theta theta -> forall x P Q, gen_map theta x P Q ->
  (letter_disc theta x Q <-> ~ letter_closed theta (linv x) P).
Proof. exact pairing. Qed.
Print Assumptions C103_pairing.

(** Every word of two letters or more without cancellation has a circle; the circle of a word is
    inside those of the words that begin it, and the others do not overlap it. *)
Theorem C103_level : forall theta, good_theta theta -> forall w, reduced w -> (2 <= length w)%nat ->
  exists c, bounds theta w c /\ forall c', bounds theta w c' -> c' = c.
Proof. exact level_ok. Qed.
Print Assumptions C103_level.

Theorem C103_nested : forall theta, good_theta theta -> forall w t c c', reduced (w ++ t) ->
  bounds theta w c -> bounds theta (w ++ t) c' -> disc_in c' c.
Proof. exact bounds_prefix. Qed.
Print Assumptions C103_nested.

Theorem C103_apart : forall theta, good_theta theta -> forall w w' c c', reduced w -> reduced w' ->
  (forall t, w' <> w ++ t) -> (forall t, w <> w' ++ t) -> bounds theta w c -> bounds theta w' c' ->
  not_overlapping c c'.
Proof. exact bounds_apart. Qed.
Print Assumptions C103_apart.

(** Two words that differ by their last letter only, the letters being neither equal nor inverse,
    have circles that touch each other. *)
Theorem C103_neighbours : forall theta, good_theta theta -> forall w x y c c', w <> [] -> adjacent x y ->
  reduced (w ++ [x]) -> reduced (w ++ [y]) -> bounds theta (w ++ [x]) c -> bounds theta (w ++ [y]) c' ->
  dist (cO c) (cO c') = cr c + cr c'.
Proof. exact neighbours_touch. Qed.
Print Assumptions C103_neighbours.

(** The program ends without exception for n at least 2; what it draws: three starting circles, the
    twelve circles of the words of two letters, then one circle for each word of [Gn n], all
    different: the circle of the word given by [drawn_word]. *)
Theorem C103_picture : forall theta, good_theta theta -> forall fuel n, (2 <= n)%nat ->
  exists c1 w2 c2 ws cs, schottky_picture fuel theta n = Some (Ok (c1 ++ c2 ++ cs)) /\
  Forall2 (bounds theta) [[LA]; [Lb]; [LB]] c1 /\ all_words 2 w2 /\ Forall2 (bounds theta) w2 c2 /\
  all_words n ws /\ length cs = (4 * 3 ^ (n - 1))%nat /\ NoDup cs /\
  Forall2 (fun w c => bounds theta (drawn_word w) c) ws cs.
Proof. exact picture_full. Qed.
Print Assumptions C103_picture.

(** Which circles of three letters or more are drawn. *)
Theorem C103_which : forall theta, good_theta theta -> forall fuel n l t c, (2 <= n)%nat ->
  schottky_picture fuel theta n = Some (Ok l) -> reduced t -> (3 <= length t)%nat -> bounds theta t c ->
  (In c l <-> (length t = n /\ last t La <> linv (hd La t)) \/ (length t = n - 1 /\ last t La <> hd La t)%nat).
Proof. exact picture_which. Qed.
Print Assumptions C103_which.

(** The circles of the words of [Gn n] are not all drawn: with the values of the program, that of
    the word a b a b b A is not. *)
Theorem C103_all_drawn_refuted : exists theta n t c, theta = -1 / 2 /\ n = 6%nat /\ reduced t /\ length t = n /\ bounds theta t c /\
  forall fuel, exists l, schottky_picture fuel theta n = Some (Ok l) /\ ~ In c l.
Proof.
  assert (G : good_theta (-1 / 2)) by (apply good_small; lra). assert (R : reduced [La; Lb; La; Lb; Lb; LA]) by (cbn; repeat split; discriminate). destruct (level_ok (-1 / 2) G _ R ltac:(cbn; lia)) as (c & B & _).
  exists (-1 / 2), 6%nat, [La; Lb; La; Lb; Lb; LA], c. split; [reflexivity|]. split; [reflexivity|]. split; [exact R|]. split; [reflexivity|]. split; [exact B|].
  intros fuel. destruct (picture_full (-1 / 2) G fuel 6 ltac:(lia)) as (c1 & w2 & c2 & ws & cs & E & _). exists (c1 ++ c2 ++ cs). split; [exact E|].
  intros I. apply (picture_which (-1 / 2) G fuel 6 _ _ c ltac:(lia) E R ltac:(cbn; lia) B) in I. cbn in I. destruct I as [(_ & I)|(I & _)]; [apply I; reflexivity|discriminate I].
Qed.
Print Assumptions C103_all_drawn_refuted.

(** Two circles of the picture are the same, or do not overlap, or one of them is inside the other. *)
Theorem C103_pairs : forall theta, good_theta theta -> forall fuel n l c c', (2 <= n)%nat ->
  schottky_picture fuel theta n = Some (Ok l) -> In c l -> In c' l ->
  c = c' \/ not_overlapping c c' \/ disc_in c c' \/ disc_in c' c.
Proof. exact picture_pairs. Qed.
Print Assumptions C103_pairs.

(** Failures: n below 2; an angle whose sine is zero. *)
Theorem C103_small : forall theta, good_theta theta -> forall fuel n, (n <= 1)%nat ->
  schottky_picture fuel theta n = Some (Raise TypeError).
Proof. exact picture_small. Qed.
Print Assumptions C103_small.

Theorem C103_zero : forall theta, sin theta = 0 -> forall fuel n, (1 <= n)%nat ->
  schottky_picture fuel theta n = Some (Raise ZeroDivisionError).
Proof. exact picture_zero. Qed.
Print Assumptions C103_zero.

(** Angles that meet the hypothesis; that of the program is - 1 / 2. *)
Theorem C103_angles : forall theta, -1 / 2 <= theta < 0 -> good_theta theta.
Proof. exact good_small. Qed.
Print Assumptions C103_angles.

(** The picture of the program: theta = - 0.5, n = 6: 972 circles after the fifteen first ones. *)
Example C103_example : exists l c, schottky_picture 0 (-1 / 2) 6 = Some (Ok l) /\ length l = 987%nat /\
  reduced [La; Lb; La; Lb; Lb; La] /\ bounds (-1 / 2) [La; Lb; La; Lb; Lb; La] c /\ In c l.
Proof.
  assert (G : good_theta (-1 / 2)) by (apply good_small; lra). destruct (picture_full (-1 / 2) G 0 6 ltac:(lia)) as (c1 & w2 & c2 & ws & cs & E & F1 & A2 & F2 & A & L & _).
  assert (R : reduced [La; Lb; La; Lb; Lb; La]) by (cbn; repeat split; discriminate). destruct (level_ok (-1 / 2) G _ R ltac:(cbn; lia)) as (c & B & _). exists (c1 ++ c2 ++ cs), c. split; [exact E|]. split; [|split; [exact R|split; [exact B|]]].
  - rewrite !app_length, L. rewrite <- (F2_len _ _ _ F1), <- (F2_len _ _ _ F2), (all_words_2 w2 A2). reflexivity.
  - apply (picture_which (-1 / 2) G 0 6 _ _ c ltac:(lia) E R ltac:(cbn; lia) B). left. split; [reflexivity|discriminate].
Qed.

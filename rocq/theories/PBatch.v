(** * Batch transforms are pointwise. *)

From Coq Require Import Reals Lra Lia Psatz List Bool Arith.
From Verif Require Import Base BaseLemmas Spec ModelInternal ModelAffine ModelTransfo ModelBatch PLine PAffine.
Import ListNotations.
Local Open Scope R_scope.

Definition row (p : pt) : list R := [fst p; snd p].

Lemma col_rows j ps : col j (map row ps) = map (fun p => nth j (row p) 0) ps.
Proof. unfold col. rewrite map_map. auto. Qed.

Lemma combine_map {A B C} (f : A -> B) (g : A -> C) l : combine (map f l) (map g l) = map (fun a => (f a, g a)) l.
Proof. induction l; cbn; f_equal; auto. Qed.

Lemma map2_map {A B C D} (h : B -> C -> D) (f : A -> B) (g : A -> C) l : map2 h (map f l) (map g l) = map (fun a => h (f a) (g a)) l.
Proof. unfold map2. rewrite combine_map, map_map. auto. Qed.

Lemma stack_map {A} (f g : A -> R) l : column_stack (map f l) (map g l) = map (fun a => [f a; g a]) l.
Proof. unfold column_stack. rewrite map2_map. auto. Qed.

Lemma repeat_map {A B} (x : B) (l : list A) : repeat x (length l) = map (fun _ => x) l.
Proof. induction l; cbn; f_equal; auto. Qed.

(** a 1 x 2 array is the list of one row *)
Lemma as_rows_ok M isp rows : as_rows M = Ok (isp, rows) ->
  (isp = true /\ exists p, M = Nd1 (row p) /\ rows = map row [p]) \/
  (isp = false /\ M = Nd2 2 rows).
Proof.
  destruct M as [x|v|c rs|s]; cbn; try discriminate.
  - destruct (Nat.eqb (length v) 2) eqn:E; [|discriminate]. intros H. injection H as <- <-. left. split; auto.
    apply Nat.eqb_eq in E. destruct v as [|a [|b [|c v]]]; cbn in E; try discriminate. exists (a, b). auto.
  - destruct (Nat.eqb c 2) eqn:E; [|discriminate]. intros H. injection H as <- <-. right. apply Nat.eqb_eq in E. subst. auto.
Qed.

(** generic statement: [batch] acts on rows as [f] *)
Definition pointwise (f : pt -> pt) (batch : nd -> res nd) : Prop :=
  (forall p, batch (Nd1 (row p)) = Ok (Nd1 (row (f p)))) /\
  (forall ps, batch (Nd2 2 (map row ps)) = Ok (Nd2 2 (map row (map f ps)))) /\
  (forall v, length v <> 2%nat -> batch (Nd1 v) = Raise ValueError) /\
  (forall c rows, c <> 2%nat -> batch (Nd2 c rows) = Raise ValueError) /\
  (forall x, batch (Nd0 x) = Raise ValueError).

Definition by_rows (g : list (list R) -> list (list R)) (M : nd) : res nd :=
  let! MM := as_rows M in Ok (from_rows (fst MM) (g (snd MM))).

Lemma by_rows_pointwise f g : (forall ps, g (map row ps) = map row (map f ps)) -> pointwise f (by_rows g).
Proof.
  intros H. unfold by_rows. split; [|split; [|split; [|split]]].
  - intros p. cbn [as_rows row length Nat.eqb bind fst snd]. change [row p] with (map row [p]). rewrite H. reflexivity.
  - intros ps. cbn [as_rows Nat.eqb bind fst snd]. rewrite H. reflexivity.
  - intros v Hv. cbn [as_rows]. apply Nat.eqb_neq in Hv. rewrite Hv. auto.
  - intros c rows Hc. cbn [as_rows]. apply Nat.eqb_neq in Hc. rewrite Hc. auto.
  - auto.
Qed.

Lemma pointwise_ext f batch batch' : (forall M, batch M = batch' M) -> pointwise f batch' -> pointwise f batch.
Proof. intros H (A & B & C & D & E). unfold pointwise. repeat split; intros; rewrite H; auto. Qed.

Ltac mm := repeat first [rewrite map_map | rewrite map2_map | rewrite stack_map | rewrite col_rows | rewrite repeat_map].

Lemma rotate_batch_pw r : pointwise (rotate r) (rotate_batch r) /\ forall s, rotate_batch r (NdMany s) = Raise ValueError.
Proof.
  split; [|auto]. eapply pointwise_ext; [|apply (by_rows_pointwise _ (fun rows =>
    let Mc := rows_sub rows (rO r) in
    rows_add (column_stack (map2 (fun x y => cos (rot_angle r) * x - sin (rot_angle r) * y) (col 0 Mc) (col 1 Mc))
                           (map2 (fun x y => sin (rot_angle r) * x + cos (rot_angle r) * y) (col 0 Mc) (col 1 Mc))) (rO r)))].
  - intros M. reflexivity.
  - intros ps. cbv zeta. unfold rows_add, rows_sub, col. mm. apply map_ext. intros p. unfold row, rotate. cbn [nth vsub vadd fst snd]. auto.
Qed.

Lemma scalingxy_batch_pw s : pointwise (scalingxy_transform s) (scalingxy_batch s) /\ forall t, scalingxy_batch s (NdMany t) = Raise ValueError.
Proof.
  split; [|auto]. eapply pointwise_ext; [|apply (by_rows_pointwise _ (fun rows =>
    rows_add (map (fun r => [xysx s * nth 0 r 0; xysy s * nth 1 r 0]) (rows_sub rows (xyO s))) (xyO s)))].
  - intros M. reflexivity.
  - intros ps. unfold rows_add, rows_sub. mm. apply map_ext. intros p. reflexivity.
Qed.

Lemma homothety_batch_pw h : pointwise (homothety_transform h) (homothety_batch h) /\ forall t, homothety_batch h (NdMany t) = Raise ValueError.
Proof.
  split; [|auto]. eapply pointwise_ext; [|apply (by_rows_pointwise _ (fun rows =>
    map (fun r => [fst (vscal (1 - hscale h) (hO h)) + nth 0 r 0; snd (vscal (1 - hscale h) (hO h)) + nth 1 r 0])
                 (map (fun r => map (Rmult (hscale h)) r) rows)))].
  - intros M. reflexivity.
  - intros ps. mm. apply map_ext. intros p. reflexivity.
Qed.

Lemma scaling_batch_pw S : pointwise (scaling_transform S) (scaling_batch S) /\ forall t, scaling_batch S (NdMany t) = Raise ValueError.
Proof.
  split; [|auto]. eapply pointwise_ext; [|apply (by_rows_pointwise _ (fun rows =>
    let theta := - atan2 (snd (scw S)) (fst (scw S)) in
    let wQ := vopp (scO S) in
    let M := rows_add rows wQ in
    let costheta := cos theta in
    let sintheta := sin theta in
    let M := column_stack (map2 (fun x y => costheta * x - sintheta * y) (col 0 M) (col 1 M))
                        (map2 (fun x y => sintheta * x + costheta * y) (col 0 M) (col 1 M)) in
    let M := column_stack (map (Rmult (scs S)) (col 0 M)) (col 1 M) in
    let sintheta := - sintheta in
    let M := column_stack (map2 (fun x y => costheta * x - sintheta * y) (col 0 M) (col 1 M))
                        (map2 (fun x y => sintheta * x + costheta * y) (col 0 M) (col 1 M)) in
    rows_sub M wQ))].
  - intros M. reflexivity.
  - intros ps. cbv zeta. unfold rows_add, rows_sub, col. mm. apply map_ext. intros p. reflexivity.
Qed.

Lemma shear_batch_pw s M0 : shear_mat3 s = Ok M0 ->
  pointwise (mat3_apply M0) (shear_batch s) /\ (forall t, shear_batch s (NdMany t) = Raise ValueError) /\
  (forall p, shear_transform s p = Ok (mat3_apply M0 p)).
Proof.
  intros H. split; [|split; [auto|intros p; unfold shear_transform; rewrite H; auto]].
  eapply pointwise_ext; [|apply (by_rows_pointwise _ (fun rows =>
    let x := col 0 rows in
    let y := col 1 rows in
    let ones := repeat 1 (length rows) in
    column_stack (lin3 (n11 M0) (n12 M0) (n13 M0) x y ones) (lin3 (n21 M0) (n22 M0) (n23 M0) x y ones)))].
  - intros M. unfold shear_batch, by_rows. rewrite H. destruct (as_rows M); auto.
  - intros ps. cbv zeta. unfold lin3, col. rewrite map_length. mm. apply map_ext. intros p. reflexivity.
Qed.

Lemma affine_batch_pw f : pointwise (affine_transform f) (affine_batch f).
Proof.
  split; [|split; [|split; [|split]]].
  - intros p. reflexivity.
  - intros ps. cbn [affine_batch Nat.eqb]. do 2 f_equal. rewrite map_length. unfold col. mm. apply map_ext. intros p. reflexivity.
  - intros v Hv. cbn [affine_batch]. apply Nat.eqb_neq in Hv. rewrite Hv. auto.
  - intros c rows Hc. cbn [affine_batch]. apply Nat.eqb_neq in Hc. rewrite Hc. auto.
  - auto.
Qed.

(** if the matrix of the shear cannot be computed, the call raises for every
    n x 2 matrix as it does for a point *)
Lemma shear_batch_raise s e : shear_mat3 s = Raise e ->
  (forall p, shear_transform s p = Raise e) /\ (forall ps, shear_batch s (Nd2 2 (map row ps)) = Raise e).
Proof. intros H. split; intros; unfold shear_transform, shear_batch; cbn [as_rows Nat.eqb bind]; rewrite H; auto. Qed.

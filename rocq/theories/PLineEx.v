(** * More lemmas on lines, and concrete cases used beside the theorems. *)

From Coq Require Import Reals Lra Psatz Nsatz List Bool ZArith.
From Verif Require Import Base BaseLemmas Spec SpecLemmas ModelInternal ModelLine PLine.
Local Open Scope R_scope.

Lemma Line_init_distinct A B eA eB l :
  Line_init A B eA eB = Ok l -> lA l = A /\ lB l = B /\ lextA l = eA /\ lextB l = eB /\ lA l <> lB l.
Proof.
  intros H. apply Line_init_Ok in H. destruct H as [H ->]. cbn [lA lB lextA lextB].
  repeat split; auto. apply allclose_false_neq; auto.
Qed.

Lemma ex_C01 : let l := mkLine (0, -1) (-1, 0) true true in
  lA l <> lB l /\ on_line (lA l) (lB l) (1, -2).
Proof.
  cbn [lA lB]. split.
  - intros E; inversion E; lra.
  - exists (-1). unspec. f_equal; lra.
Qed.

Lemma is_equal_mirror_full l1 l2 : lA l1 <> lB l1 ->
  lA l2 = vopp (lA l1) -> lB l2 = vopp (lB l1) ->
  line_is_equal l1 l2 = true /\
  (~ on_line (lA l1) (lB l1) (0, 0) ->
   forall M, on_line (lA l1) (lB l1) M -> ~ on_line (lA l2) (lB l2) M).
Proof.
  intros H HA HB. split.
  - apply is_equal_mirror; auto.
  - rewrite HA, HB. apply mirror_line_disjoint; auto.
Qed.

Lemma vertical_do a y1 y2 eA eB : 0 < a ->
  direction_offset (mkLine (a, y1) (a, y2) eA eB) = (0, a).
Proof. intros. unfold direction_offset. cbn [lA lB fst snd]. evalb. reflexivity. Qed.

Lemma vertical_do_neg a y1 y2 eA eB : a <= 0 ->
  direction_offset (mkLine (a, y1) (a, y2) eA eB) = (PI, - a).
Proof. intros. unfold direction_offset. cbn [lA lB fst snd]. evalb. reflexivity. Qed.

Lemma is_equal_unsound : exists l1 l2,
  Line_init (1, 0) (1, 1) true true = Ok l1 /\ Line_init (-1, 0) (-1, 1) true true = Ok l2 /\
  line_is_equal l1 l2 = true /\ ~ same_line (lA l1) (lB l1) (lA l2) (lB l2).
Proof.
  exists (mkLine (1, 0) (1, 1) true true), (mkLine (-1, 0) (-1, 1) true true).
  split; [|split; [|split]].
  - apply Line_init_Ok. split; auto. evalclose.
  - apply Line_init_Ok. split; auto. evalclose.
  - apply is_equal_of_offsets; cbn [lA lB].
    + intros E; inversion E; lra.
    + intros E; inversion E; lra.
    + unspec. ring.
    + rewrite vertical_do, vertical_do_neg by lra. cbn [snd]. lra.
  - cbn [lA lB]. intros E. destruct (E (1, 0)) as [E1 _].
    destruct (E1 (on_line_A _ _)) as [t Ht]. unspec. inversion Ht. lra.
Qed.

Lemma ex_C02_false :
  line_is_equal (mkLine (1, 0) (1, 1) true true) (mkLine (2, 0) (2, 5) true true) = false.
Proof.
  unfold line_is_equal. rewrite !vertical_do by lra. cbn [fst snd].
  unfold approx_equal_. evalclose.
Qed.

Lemma approx_equal_0_false x : 2 / 1000000000 <= Rabs x -> approx_equal_ x 0 = false.
Proof.
  intros H. unfold approx_equal_. apply orb_false_iff. unfold isclose. split; apply leb_false.
  - rewrite Rminus_0_r, Rabs_R0, Rmax_left by apply Rabs_pos. lra.
  - replace (x + 1 - (0 + 1)) with x by ring.
    replace (0 + 1) with 1 by ring. rewrite (Rabs_right 1) by lra.
    pose proof (Rabs_triang x 1). rewrite (Rabs_right 1) in H0 by lra.
    pose proof (Rabs_pos (x + 1)).
    apply Rmax_case; lra.
Qed.

Lemma is_perpendicular_large l1 l2 :
  2 / 1000000000 <= Rabs (sdot (vsub (lB l1) (lA l1)) (vsub (lB l2) (lA l2))) ->
  is_perpendicular l1 l2 = false.
Proof. intros H. unfold is_perpendicular. apply approx_equal_0_false. exact H. Qed.

Lemma tiny_lines (u v : pt) : sdot u u = 1 -> sdot v v = 1 ->
  exists l1 l2,
    Line_init (0, 0) (vscal (/ 100000) u) true true = Ok l1 /\
    Line_init (0, 0) (vscal (/ 100000) v) true true = Ok l2 /\
    is_parallel l1 l2 = true /\ is_perpendicular l1 l2 = true.
Proof.
  intros Hu Hv. exists (tiny u), (tiny v).
  repeat split; [apply tiny_valid|apply tiny_valid|apply tiny_parallel|apply tiny_perpendicular]; auto.
Qed.

Lemma ex_C03 : sdot (3 / 5, 4 / 5) (3 / 5, 4 / 5) = 1 /\ sdot (1, 0) (1, 0) = 1.
Proof. unspec. split; lra. Qed.

Lemma includes_origin l cc : lA l <> lB l ->
  (lextA l = false -> lextB l = true -> line_includes l (lA l) true cc = Ok false) /\
  (lextA l = true -> lextB l = false -> line_includes l (lB l) true cc = Ok false).
Proof.
  intros H. split; intros E1 E2.
  - destruct (includes_strict l (lA l) cc H (on_line_A _ _)) as (b & Hb & Hi). rewrite E1, E2 in Hi.
    rewrite Hb. f_equal. apply (bool_iff _ _ Hi).
    replace (lA l) with (at_line (lA l) (lB l) 0) at 2.
    + rewrite at_line_ray by auto. lra.
    + destruct (lA l), (lB l); unspec; f_equal; ring.
  - destruct (includes_strict l (lB l) cc H (on_line_B _ _)) as (b & Hb & Hi). rewrite E1, E2 in Hi.
    rewrite Hb. f_equal. apply (bool_iff _ _ Hi).
    replace (lB l) with (at_line (lB l) (lA l) 0) at 2.
    + rewrite at_line_ray by auto. lra.
    + destruct (lA l), (lB l); unspec; f_equal; ring.
Qed.

Lemma includes_strict_off l M :
  allclose (lA l) (lB l) = false -> allclose (lA l) M = false -> allclose (lB l) M = false ->
  ~ on_line (lA l) (lB l) M -> line_includes l M true true = Ok false.
Proof.
  intros H1 H2 H3 H. destruct (collinear_not_close _ _ _ H1 H2 H3) as (b & Hb & Hi).
  unfold line_includes. rewrite Hb. cbn [bind]. rewrite (bool_iff _ _ Hi H). reflexivity.
Qed.

Lemma ex_C04 : let l := mkLine (0, 0) (2, 2) false true in
  allclose (lA l) (lB l) = false /\ allclose (lA l) (3, 3) = false /\ allclose (lB l) (3, 3) = false /\
  on_line (lA l) (lB l) (3, 3) /\ on_open_ray (lA l) (lB l) (3, 3) /\
  on_line (lA l) (lB l) (-1, -1) /\ ~ on_open_ray (lA l) (lB l) (-1, -1).
Proof.
  cbn [lA lB]. split; [evalclose|]. split; [evalclose|]. split; [evalclose|].
  split; [exists (3 / 2); unspec; f_equal; lra|].
  split; [exists (3 / 2); unspec; split; [lra|f_equal; lra]|].
  split; [exists (-1 / 2); unspec; f_equal; lra|].
  intros (t & Ht & E). unspec. inversion E. lra.
Qed.

Lemma perpendicular_full l M eH eM l' : lA l <> lB l -> perpendicular l M eH eM = Ok l' ->
  on_line (lA l') (lB l') M /\ orthogonal (vsub (lB l') (lA l')) (vsub (lB l) (lA l)) /\
  lA l' <> lB l' /\
  (line_includes l M false true = Ok false ->
     line_projection l M = Some (lA l') /\ lB l' = M /\ lextA l' = eH /\ lextB l' = eM) /\
  (line_includes l M false true = Ok true -> lA l' = M /\ lextA l' = true /\ lextB l' = true).
Proof.
  intros H E. destruct (perpendicular_spec l M eH eM l' H E) as (H1 & H2 & H3 & H4).
  split; auto. split; auto. split; [apply allclose_false_neq; auto|auto].
Qed.

Lemma perpendicular_total l M eH eM : lA l <> lB l ->
  (forall e, perpendicular l M eH eM = Raise e -> e = ValueError) /\
  (forall P, line_includes l M false true = Ok false -> line_projection l M = Some P ->
     allclose P M = false -> perpendicular l M eH eM = Ok (mkLine P M eH eM)).
Proof.
  intros H. split.
  - intros e. apply perpendicular_raises; auto.
  - intros P HI HP HC.
    destruct (perpendicular l M eH eM) as [l'|e] eqn:E.
    + destruct (perpendicular_spec l M eH eM l' H E) as (_ & _ & _ & H4 & _).
      destruct (H4 HI) as (K1 & K2 & K3 & K4). rewrite K1 in HP. inversion HP.
      destruct l' as [a b x y]; cbn [lA lB lextA lextB] in *. subst. reflexivity.
    + exfalso. revert E. unfold perpendicular. rewrite HI. cbn [bind].
      pose proof (pt_neq _ _ H) as Hp.
      set (v := (- snd (vsub (lB l) (lA l)), fst (vsub (lB l) (lA l)))).
      pose proof (line_line_intersection_spec (lA l) (lB l) (vsub M v) (vadd M v)) as S.
      destruct (line_line_intersection_ (lA l) (lB l) (vsub M v) (vadd M v)) as [Q|].
      * assert (Q = P).
        { destruct (projection_spec l M H) as (P' & HP' & H1 & H2). rewrite HP' in HP. inversion HP; subst P'.
          apply on_line_cross in H1; auto. destruct S as (S0 & S1 & S2).
          apply (lli_unique (lA l) (lB l) M (vadd M v)); auto; unfold v in *; unspec; lra. }
        subst Q. unfold Line_init. rewrite HC. discriminate.
      * unfold v in S. unspec. lra.
Qed.

Lemma ex_C05 : let l := mkLine (0, 0) (2, 0) true true in
  line_projection l (5, 3) = Some (5, 0) /\
  perpendicular l (5, 3) false true = Ok (mkLine (5, 0) (5, 3) false true).
Proof.
  cbv zeta. set (l := mkLine (0, 0) (2, 0) true true).
  assert (H : lA l <> lB l) by (cbn; intros E; inversion E; lra).
  assert (HP : line_projection l (5, 3) = Some (5, 0)).
  { unfold line_projection, line_line_intersection_, l, vadd, det2x2_. cbn [lA lB fst snd]. evalb.
    f_equal. f_equal; field. }
  split; auto.
  destruct (perpendicular_total l (5, 3) false true H) as [_ T]. apply T; auto.
  - assert (E1 : allclose (lA l) (lB l) = false) by (unfold l; cbn [lA lB]; evalclose).
    assert (E2 : allclose (lA l) (5, 3) = false) by (unfold l; cbn [lA lB]; evalclose).
    assert (E3 : allclose (lB l) (5, 3) = false) by (unfold l; cbn [lA lB]; evalclose).
    destruct (includes_decides l (5, 3) true E1 E2 E3) as (b & Hb & Hi).
    rewrite Hb. f_equal. apply (bool_iff _ _ Hi). intros [t Ht]. cbn [l lA lB] in Ht. unspec. inversion Ht. lra.
  - evalclose.
Qed.

Lemma rotate_translate_total l alpha O degrees v :
  (line_rotate l alpha O degrees = Raise ValueError <->
     allclose (rot (radians degrees alpha) O (lA l)) (rot (radians degrees alpha) O (lB l)) = true) /\
  (forall e, line_rotate l alpha O degrees = Raise e -> e = ValueError) /\
  (line_translate l v = Raise ValueError <-> allclose (vadd (lA l) v) (vadd (lB l) v) = true) /\
  (forall e, line_translate l v = Raise e -> e = ValueError).
Proof.
  rewrite rotate_spec. unfold line_translate, Line_init.
  destruct (allclose (rot _ _ _) _); destruct (allclose (vadd _ _) _);
  repeat split; intros; congruence.
Qed.

Lemma ex_C07 : line_translate (mkLine (0, 0) (1, 1) true false) (2, 3)
  = Ok (mkLine (0 + 2, 0 + 3) (1 + 2, 1 + 3) true false).
Proof.
  unfold line_translate, vadd. cbn [lA lB lextA lextB fst snd]. apply Line_init_Ok. split; auto. evalclose.
Qed.

Lemma ex_C08 : let l1 := mkLine (1, 0) (1, 1) true true in
  let l2 := mkLine (0, 2) (1, 2) true true in
  / 67108864 <= Rabs (scross (vsub (lB l1) (lA l1)) (vsub (lB l2) (lA l2))) /\
  line_is_equal l1 l2 = false /\ intersection_line_line l1 l2 false = Some (1, 2).
Proof.
  cbn [lA lB].
  assert (HC : / 67108864 <= Rabs (scross (vsub (1, 1) (1, 0)) (vsub (1, 2) (0, 2)))).
  { unspec. rsolve. }
  assert (HO : snd (direction_offset (mkLine (0, 2) (1, 2) true true)) = 2).
  { unfold direction_offset. cbn [lA lB fst snd]. evalb.
    replace (atan2 (1 - 0) (2 - 2)) with (PI / 2).
    2:{ unfold atan2. repeat destruct Rlt_dec; try lra. }
    rewrite sin_neg, cos_neg, sin_PI2, cos_PI2. evalb. cbn [snd]. lra. }
  assert (HE : line_is_equal (mkLine (1, 0) (1, 1) true true) (mkLine (0, 2) (1, 2) true true) = false).
  { unfold line_is_equal. rewrite HO, vertical_do by lra. cbn [fst snd].
    unfold approx_equal_. unfold isclose. evalb.
    destruct (direction_offset (mkLine (0, 2) (1, 2) true true)) as [d o]. cbn [snd] in HO. subst o.
    unfold allclose. cbn [fst snd].
    assert (E : allclose1 1 2 = false) by (unfold allclose1; evalb; reflexivity). rewrite E. apply andb_false_r. }
  split; [exact HC|]. split; [exact HE|].
  unfold intersection_line_line. rewrite HE.
  destruct (is_parallel _ _) eqn:F; [apply is_parallel_iff in F; cbn [lA lB] in F; unfold sepsilon_ in F; lra|].
  cbn [negb lA lB]. unfold line_line_intersection_, det2x2_. cbn [fst snd]. evalb. f_equal. f_equal; field.
Qed.

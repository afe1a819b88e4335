(** * The arcs of the hyperbolic tessellations. *)

From Coq Require Import Reals List Bool Arith Lia Lra Psatz Permutation Sorted.
From Verif Require Import Base BaseLemmas Spec SpecLemmas SpecHyperbolic ModelInternal ModelLine ModelCircle ModelInversion ModelHyperbolic PLine PCircle PCircle2 PApo2 PMobGasket1 PHyp1 PHyp2 PHyp3 PHyp4.
Import ListNotations.
Local Open Scope R_scope.

Lemma hyperbolic_picture r t0 t1 t2 depth pic A0 : 0 < r -> (2 <= depth)%nat -> hyperbolic_tessellation r t0 t1 t2 depth = Ok pic ->
  length pic = depth /\
  (exists ps : nat -> list pt, ps 0%nat = [vscal r (un t0); vscal r (un t1); vscal r (un t2)] /\ (forall d, (d < depth)%nat ->
     incl (ps d) (ps (Datatypes.S d)) /\ Forall (on_circle (0, 0) r) (ps d) /\
     (forall P, In P (ps d) <-> In P (ps 0%nat) \/ exists e i M, (1 <= e <= d)%nat /\ mirrored (nth 0 pic []) [un t0; un t1; un t2] e i M /\ seen_at r M P) /\ length (ps d) = (3 * 2 ^ d)%nat /\ length (nth d pic []) = (3 * 2 ^ d)%nat /\
     forall i, (i < 3 * 2 ^ d)%nat -> joins (nth i (nth d pic []) A0) (nth i (ps d) (0, 0)) (nth ((i + 1) mod (3 * 2 ^ d)) (ps d) (0, 0)))) /\
  Forall (hyperbolic_line r) (concat pic) /\
  forall A B, In A (concat pic) -> In B (concat pic) -> do_not_cross r A B.
Proof.
  intros Hr Hd H. unfold hyperbolic_tessellation in H. apply bind_Ok in H. destruct H as ([arcs gens] & Hp & H). cbn [fst snd] in H.
  apply bind_Ok in H. destruct H as (Thetas & Ha & H). apply bind_Ok in H. destruct H as (levels & HL & H). injection H as <-.
  destruct (lists_ok r t0 t1 t2 depth arcs gens Thetas Hd Hp Ha) as (E0 & HI & HR & Hlen).
  destruct (points_count _ _ _ _ _ _ _ Hp) as (Hs & _ & _).
  set (l := fun d => concat (firstn (d + 1) Thetas)) in *.
  destruct (levels_nth _ 1 (depth - 1) levels [] HL) as [LL Hlev].
  assert (ND : forall d A, (d < depth)%nat -> In A (nth d (arcs :: levels) []) -> node r (l d) A).
  { intros [|d] A Hdd HA; cbn [nth] in HA.
    - pose proof (sides_nodes r t0 t1 t2 arcs Hs) as F. rewrite Forall_forall in F. specialize (F A HA). rewrite <- E0 in F. exact F.
    - pose proof (level_nodes r (l (Datatypes.S d)) (nth d levels []) Hr (HR _) (Hlev d ltac:(lia))) as F. rewrite Forall_forall in F. auto. }
  assert (NC : forall A, In A (concat (arcs :: levels)) -> exists d, node r (l d) A).
  { intros A HA. apply in_concat in HA. destruct HA as (x & H1 & H2). destruct (In_nth _ _ [] H1) as (d & Hdd & <-). exists d. apply ND; auto. cbn [length] in Hdd. lia. }
  assert (Len : forall d, (1 <= d < depth)%nat -> length (nth d (arcs :: levels) []) = (3 * 2 ^ d)%nat /\
    forall i, (i < 3 * 2 ^ d)%nat -> arc_of r (nth i (sort_r (l d)) 0) (nth ((i + 1) mod (3 * 2 ^ d)) (sort_r (l d)) 0) (nth i (nth d (arcs :: levels) []) A0)).
  { intros d Hdd. destruct d as [|d]; [lia|]. cbn [nth]. destruct (hyp_arcs_spec r _ _ A0 (Hlev d ltac:(lia))) as [K1 K2].
    change (concat (firstn (1 + d + 1) Thetas)) with (l (Datatypes.S d)) in K1, K2.
    assert (EL : length (sort_r (l (Datatypes.S d))) = (3 * 2 ^ Datatypes.S d)%nat) by (rewrite (Permutation_length (sort_perm _)); apply Hlen; lia).
    rewrite EL in K1. split; [exact K1|]. intros i Hi. rewrite <- EL in Hi |- *. apply K2; exact Hi. }
  split; [cbn [length]; lia|]. split; [|split].
  - exists (fun d => match d with 0%nat => [vscal r (un t0); vscal r (un t1); vscal r (un t2)] | _ => map (fun t => vscal r (un t)) (sort_r (l d)) end).
    split; auto. intros d Hdd. split; [|split; [|split; [|split; [|split]]]].
    + destruct d as [|d].
      * assert (Q : forall t, In t [t0; t1; t2] -> In (vscal r (un t)) (map (fun t => vscal r (un t)) (sort_r (l 1%nat)))).
        { intros t Ht. rewrite <- (norm_un t). apply in_map_iff. exists (norm_angle t). split; auto. apply (Permutation_in _ (Permutation_sym (sort_perm _))).
          apply HI. rewrite E0. apply in_map; auto. }
        intros x Hx. cbn [In] in Hx. destruct Hx as [<-|[<-|[<-|[]]]]; apply Q; cbn; auto.
      * intros x Hx. apply in_map_iff in Hx. destruct Hx as (t & <- & Ht). apply in_map_iff. exists t. split; auto.
        apply (Permutation_in _ (Permutation_sym (sort_perm _))). apply HI. apply (Permutation_in _ (sort_perm _)); auto.
    + rewrite Forall_forall. intros x Hx. destruct d as [|d]; [cbn [In] in Hx; destruct Hx as [<-|[<-|[<-|[]]]]; apply un_on; auto|].
      apply in_map_iff in Hx. destruct Hx as (t & <- & _). apply un_on; auto.
    + intros P. rewrite <- (angle_points r t0 t1 t2 depth arcs gens Thetas Hp Ha d P Hdd). change (concat (firstn (d + 1) Thetas)) with (l d). destruct d as [|d].
      * change (l 0%nat) with (concat (firstn (0 + 1) Thetas)). rewrite E0. split.
        -- intros H. cbn [In] in H. destruct H as [<-|[<-|[<-|[]]]]; [exists (norm_angle t0)|exists (norm_angle t1)|exists (norm_angle t2)]; (split; [cbn; auto|rewrite norm_un; auto]).
        -- intros (t & Ht & ->). cbn [map In] in Ht. destruct Ht as [<-|[<-|[<-|[]]]]; rewrite norm_un; cbn [In]; auto.
      * split.
        -- intros H. apply in_map_iff in H. destruct H as (t & <- & Ht). exists t. split; auto. apply (Permutation_in _ (sort_perm _)); auto.
        -- intros (t & Ht & ->). apply (in_map (fun t => vscal r (un t))). apply (Permutation_in _ (Permutation_sym (sort_perm _))); auto.
    + destruct d as [|d]; [reflexivity|]. rewrite map_length, (Permutation_length (sort_perm _)). apply Hlen; auto.
    + destruct d as [|d]; [|apply Len; lia]. destruct (hyp_sides_spec r t0 t1 t2 arcs Hs) as (B0 & B1 & B2 & -> & _). reflexivity.
    + destruct d as [|d].
      * destruct (hyp_sides_spec r t0 t1 t2 arcs Hs) as (B0 & B1 & B2 & -> & H0 & H1 & H2). change (3 * 2 ^ 0)%nat with 3%nat. intros i Hi.
        destruct i as [|[|[|i]]]; [| | |lia]; cbn [nth]; [change ((0 + 1) mod 3)%nat with 1%nat|change ((1 + 1) mod 3)%nat with 2%nat|change ((2 + 1) mod 3)%nat with 0%nat]; cbn [nth]; apply arc_of_line; auto.
      * intros i Hi. destruct (Len (Datatypes.S d)) as [_ K]; [lia|]. specialize (K i Hi). apply arc_of_line in K; auto. destruct K as [_ K].
        assert (EL : length (sort_r (l (Datatypes.S d))) = (3 * 2 ^ Datatypes.S d)%nat) by (rewrite (Permutation_length (sort_perm _)); apply Hlen; auto).
        assert (Em : forall j, (j < 3 * 2 ^ Datatypes.S d)%nat -> nth j (map (fun t => vscal r (un t)) (sort_r (l (Datatypes.S d)))) (0, 0) = vscal r (un (nth j (sort_r (l (Datatypes.S d))) 0))).
        { intros j Hj. rewrite (nth_indep _ (0, 0) (vscal r (un 0))) by (rewrite map_length, EL; auto). apply (map_nth (fun t => vscal r (un t))). }
        rewrite !Em; auto. apply Nat.mod_upper_bound. lia.
  - rewrite Forall_forall. intros A HA. destruct (NC A HA) as (d & a & b & K & _). apply (arc_of_line r a b A Hr K).
  - intros A B HA HB. destruct (NC A HA) as (d & KA). destruct (NC B HB) as (e & KB). apply (nodes_no_cross r l A B d e); auto.
Qed.

Lemma hyperbolic_picture2 r t0 t1 t2 depth pic : 0 < r -> (2 <= depth)%nat -> hyperbolic_tessellation2 r t0 t1 t2 depth = Ok pic ->
  length pic = (3 * (2 ^ (depth - 1) - 1))%nat /\ Forall (fun Ad => hyperbolic_line r (fst Ad) /\ (1 <= snd Ad < depth)%nat) pic /\
  forall A d B e, In (A, d) pic -> In (B, e) pic -> do_not_cross r A B.
Proof.
  intros Hr Hd H. unfold hyperbolic_tessellation2 in H. apply bind_Ok in H. destruct H as ([arcs gens] & Hp & H). cbn [fst snd] in H.
  apply bind_Ok in H. destruct H as (Thetas & Ha & H). apply bind_Ok in H. destruct H as (levels & HL & H). injection H as <-.
  destruct (lists_ok r t0 t1 t2 depth arcs gens Thetas Hd Hp Ha) as (E0 & HI & HR & Hlen).
  destruct (points_count _ _ _ _ _ _ _ Hp) as (Hs & _ & _).
  set (l := fun d => concat (firstn (d + 1) Thetas)) in *.
  destruct (levels_nth _ 2 (depth - 2) levels [] HL) as [LL Hlev].
  assert (K : forall i, (i < depth - 2)%nat -> exists arcs', hyp_arcs (mkCircle (0, 0) r) (sort_r (l (1 + i)%nat)) = Ok arcs' /\ nth i levels [] = map (fun a => (a, (2 + i)%nat)) arcs').
  { intros i Hi. specialize (Hlev i Hi). apply bind_Ok in Hlev. destruct Hlev as (arcs' & E & K). injection K as K. exists arcs'. split; [|symmetry; auto].
    unfold l. replace (1 + i + 1)%nat with (2 + i)%nat by lia. exact E. }
  assert (NC : forall A d, In (A, d) (map (fun a => (a, 1%nat)) arcs ++ concat levels) -> (1 <= d < depth)%nat /\ exists e, node r (l e) A).
  { intros A d HA. apply in_app_or in HA. destruct HA as [HA|HA].
    - apply in_map_iff in HA. destruct HA as (a & E & HA). injection E as -> <-. split; [lia|]. exists 0%nat.
      pose proof (sides_nodes r t0 t1 t2 arcs Hs) as F. rewrite Forall_forall in F. specialize (F A HA). rewrite <- E0 in F. exact F.
    - apply in_concat in HA. destruct HA as (x & H1 & H2). destruct (In_nth _ _ [] H1) as (i & Hi & <-). rewrite LL in Hi. destruct (K i Hi) as (arcs' & E1 & E2).
      rewrite E2 in H2. apply in_map_iff in H2. destruct H2 as (a & E & H2). injection E as -> <-. split; [lia|]. exists (1 + i)%nat.
      pose proof (level_nodes r (l (1 + i)%nat) arcs' Hr (HR _) E1) as F. rewrite Forall_forall in F. auto. }
  split; [|split].
  - rewrite app_length, map_length. destruct (hyp_sides_spec r t0 t1 t2 arcs Hs) as (B0 & B1 & B2 & -> & _). cbn [length].
    assert (Q : forall (ls : list (list (arc * nat))) n, length ls = n -> (forall i, (i < n)%nat -> length (nth i ls []) = (3 * 2 ^ (1 + i))%nat) -> length (concat ls) = (3 * (2 ^ (n + 1) - 2))%nat).
    { clear. intros ls n. revert ls. induction n as [|n IH]; intros ls L1 L2.
      - destruct ls; [reflexivity|discriminate].
      - assert (Hls : ls <> []) by (intros ->; discriminate). destruct (exists_last Hls) as (ls' & x & ->).
        rewrite app_length in L1. cbn [length] in L1. assert (L1' : length ls' = n) by lia. rewrite concat_app, app_length. cbn [concat]. rewrite app_nil_r.
        rewrite (IH ls' L1'). 2:{ intros i Hi. rewrite <- (L2 i) by lia. rewrite app_nth1 by lia. reflexivity. }
        specialize (L2 n ltac:(lia)). rewrite app_nth2 in L2 by lia. replace (n - length ls')%nat with 0%nat in L2 by lia. cbn [nth] in L2. rewrite L2.
        replace (Datatypes.S n + 1)%nat with (Datatypes.S (n + 1)) by lia. replace (1 + n)%nat with (n + 1)%nat by lia. rewrite Nat.pow_succ_r' .
        assert (2 <= 2 ^ (n + 1))%nat by (replace (n + 1)%nat with (Datatypes.S n) by lia; rewrite Nat.pow_succ_r'; pose proof (Nat.pow_nonzero 2 n); lia). lia. }
    rewrite (Q levels (depth - 2)%nat LL).
    + replace (depth - 2 + 1)%nat with (depth - 1)%nat by lia.
      assert (2 <= 2 ^ (depth - 1))%nat by (replace (depth - 1)%nat with (Datatypes.S (depth - 2)) by lia; rewrite Nat.pow_succ_r'; pose proof (Nat.pow_nonzero 2 (depth - 2)); lia). lia.
    + intros i Hi. destruct (K i Hi) as (arcs' & E1 & ->). rewrite map_length. destruct (hyp_arcs_spec r _ _ B0 E1) as [-> _].
      rewrite (Permutation_length (sort_perm _)). apply Hlen. lia.
  - rewrite Forall_forall. intros [A d] HA. cbn [fst snd]. destruct (NC A d HA) as (Hdd & e & a & b & Q & _). split; auto. apply (arc_of_line r a b A Hr Q).
  - intros A d B e HA HB. destruct (NC A d HA) as (_ & i & KA). destruct (NC B e HB) as (_ & j & KB). apply (nodes_no_cross r l A B i j); auto.
Qed.

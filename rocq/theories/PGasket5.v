(** * Proofs about the triangular gasket: the generations. *)

From Coq Require Import Reals Lra Lia Psatz List Bool ZArith.
From Verif Require Import Base BaseLemmas Spec SpecLemmas SpecTriangle ModelInternal ModelLine ModelCircle ModelTriangle ModelGasket PSteiner PGasket1 PGasket2 PGasket3 PGasket4.
Import ListNotations.
Local Open Scope R_scope.

Lemma FOP_app {X} (P : X -> X -> Prop) l1 l2 :
  ForallOrdPairs P (l1 ++ l2) <-> ForallOrdPairs P l1 /\ ForallOrdPairs P l2 /\ forall x y, In x l1 -> In y l2 -> P x y.
Proof.
  induction l1 as [|a l1 IH]; cbn [app].
  - split; [intros H; split; [constructor|split; [auto|intros x y []]]|tauto].
  - split.
    + intros H. inversion H as [|? ? F R]; subst. apply IH in R. destruct R as (R1 & R2 & R3). rewrite Forall_app in F. destruct F as (F1 & F2).
      split; [constructor; auto|]. split; [auto|]. intros x y [<-|Hx] Hy; [rewrite Forall_forall in F2; auto|auto].
    + intros (H1 & H2 & H3). inversion H1 as [|? ? F R]; subst. constructor.
      * rewrite Forall_app. split; auto. apply Forall_forall. intros y Hy. apply H3; cbn [In]; auto.
      * apply IH. split; [auto|]. split; [auto|]. intros x y Hx Hy. apply H3; cbn [In]; auto.
Qed.

Section Generations.
Variables (A B C : pt) (H : list (pt * pt)).
Hypothesis HU : Forall (fun s => sdot (fst s) (fst s) = 1) H.

(** in the half-planes [H] *)
Definition within (c : circle) : Prop := Forall (fun s => hp (fst s) (snd s) c) H.
Definition withinp (P : pt) : Prop := Forall (fun s => 0 <= sdot (fst s) (vsub P (snd s))) H.

Definition inv (l : list circle) (p : list (hole * circle)) : Prop :=
  Forall posc l /\ ForallOrdPairs disj l /\ Forall within l /\
  Forall (fun x => region (fst x) (snd x)) p /\ ForallOrdPairs (fun x y => disj (snd x) (snd y)) p /\
  (forall h D w, In (h, D) p -> In w l -> In w (members h) \/ disj D w) /\
  (forall h D, In (h, D) p -> incl (members h) l) /\
  (forall h D, In (h, D) p -> okside A B C h /\ Forall withinp (corners h)).

(** [c] is tangent to the three members of a hole, which are in [l] or are sides *)
Definition filled (l : list circle) (c : circle) : Prop := exists h D,
  region h D /\ okside A B C h /\ incl (members h) l /\ Forall (tang c) (members h) /\
  Forall (fun s => line_tangent (fst s) (snd s) (cO c) (cr c)) (sides h).
Definition trail (l new : list circle) : Prop := forall l1 c l2, new = l1 ++ c :: l2 -> filled (l ++ l1) c.

Lemma trail_app l n1 n2 : trail l n1 -> trail (l ++ n1) n2 -> trail l (n1 ++ n2).
Proof.
  intros T1 T2 l1 c l2 E. revert l T1 T2 l1 E. induction n1 as [|a n1 IH]; intros l T1 T2 l1 E.
  - rewrite app_nil_r in T2. apply (T2 l1 c l2). auto.
  - destruct l1 as [|b l1]; cbn [app] in E; injection E as <- E.
    + apply (T1 [] a n1). auto.
    + replace (l ++ a :: l1) with ((l ++ [a]) ++ l1) by (rewrite <- app_assoc; auto). apply (IH (l ++ [a])); auto.
      * intros l1' c' l2' E'. replace ((l ++ [a]) ++ l1') with (l ++ a :: l1') by (rewrite <- app_assoc; auto). apply (T1 (a :: l1') c' l2'). cbn [app]. f_equal. auto.
      * rewrite <- app_assoc. auto.
Qed.
Lemma trail_1 l c : filled l c -> trail l [c].
Proof.
  intros F l1 c' l2 E. destruct l1 as [|a [|b l1]]; cbn [app] in E; injection E as <- E; [rewrite app_nil_r; auto|discriminate|discriminate].
Qed.

Lemma inv_step l h D q : inv l ((h, D) :: q) ->
  new_hole h = Raise ValueError \/ exists c hs ps, new_hole h = Ok (c, hs) /\ map fst ps = hs /\ length ps = 3%nat /\
    inv (l ++ [c]) (q ++ ps) /\ filled l c /\ step_ok h D c hs.
Proof.
  intros (Ip & Id & Iw & Ir & Ij & Im & Ii & Io). assert (R : region h D) by (inversion Ir; auto).
  destruct (new_hole_step h D R) as [E|(c & hs & E & St)]; [left; auto|right]. pose proof St as St0.
  destruct St as (Pc & IcD & Tm & Ts & Hh & h1 & h2 & h3 & D1 & D2 & D3 & Ehs & R1 & R2 & R3 & I1 & I2 & I3 & J1 & J2 & J3 & K).
  set (ps := [(h1, D1); (h2, D2); (h3, D3)]) in *.
  exists c, hs, ps. split; [auto|]. split; [auto|]. split; [auto|].
  destruct (Io h D (or_introl eq_refl)) as (Ok0 & Co0). pose proof (Ii h D (or_introl eq_refl)) as Inc0.
  assert (In' : forall h' D', In (h', D') ps -> region h' D' /\ inner D' D).
  { intros h' D' [Q|[Q|[Q|[]]]]; injection Q as <- <-; auto. }
  inversion Ij as [|? ? Fj Rj]. rewrite Forall_forall in Fj.
  split; [|split; [|exact St0]].
  - unfold inv. split; [rewrite Forall_app; auto|]. split.
    { apply FOP_app. split; [auto|]. split; [repeat constructor|]. intros w z Hw [<-|[]]. rewrite Forall_forall in Tm.
      destruct (Im h D w (or_introl eq_refl) Hw) as [Mw|Dw]; [apply tang_disj, tang_sym; auto|]. apply disj_sym, (inner_disj c D w); auto. }
    split.
    { rewrite Forall_app. split; [auto|]. constructor; [|constructor]. unfold within. apply Forall_forall. intros s Hs. apply Hh.
      - rewrite Forall_forall in HU. auto.
      - apply Forall_forall. intros w Hw. rewrite Forall_forall in Iw. pose proof (Iw w (Inc0 w Hw)) as X. unfold within in X. rewrite Forall_forall in X. auto.
      - apply Forall_forall. intros P HP. rewrite Forall_forall in Co0. pose proof (Co0 P HP) as X. unfold withinp in X. rewrite Forall_forall in X. auto. }
    split; [rewrite Forall_app; split; [inversion Ir; auto|repeat constructor; auto]|]. split.
    { apply FOP_app. split; [auto|]. split; [unfold ps; constructor; [constructor; [exact J1|constructor; [exact J2|constructor]]|constructor; [constructor; [exact J3|constructor]|constructor; [constructor|constructor]]]|]. intros [ha Da] [hb Db] Ha Hb. cbn [snd].
      destruct (In' hb Db Hb) as (_ & Ib). apply disj_sym, (inner_disj Db D Da); auto. exact (Fj _ Ha). }
    split.
    { intros h' D' w Hh' Hw. rewrite in_app_iff in Hh', Hw. destruct Hh' as [Hh'|Hh'].
      - destruct Hw as [Hw|[<-|[]]]; [apply (Im h' D'); cbn [In]; auto|]. right. pose proof (Fj _ Hh') as F. cbn [snd] in F. apply disj_sym, (inner_disj c D D'); auto.
      - destruct (K h' D' Hh') as (K1 & K2 & K3 & _). destruct Hw as [Hw|[<-|[]]]; [|left; auto].
        destruct (Im h D w (or_introl eq_refl) Hw) as [Mw|Dw]; [auto|]. right. destruct (In' h' D' Hh') as (_ & Ib). apply (inner_disj D' D w); auto. }
    split.
    { intros h' D' Hh' w Hw. rewrite in_app_iff in *. destruct Hh' as [Hh'|Hh'].
      - left. apply (Ii h' D'); cbn [In]; auto.
      - destruct (K h' D' Hh') as (K1 & K2 & _). destruct (K2 w Hw) as [<-|Hm]; [cbn [In]; auto|left; auto]. }
    intros h' D' Hh'. rewrite in_app_iff in Hh'. destruct Hh' as [Hh'|Hh']; [apply (Io h' D'); cbn [In]; auto|].
    destruct (K h' D' Hh') as (_ & _ & _ & K4 & K5). split; auto. apply Forall_forall. intros P HP. rewrite Forall_forall in Co0. auto.
  - exists h, D. auto.
Qed.

Lemma inv_gen p : forall l q, inv l (p ++ q) ->
  mapM new_hole (map fst p) = Raise ValueError \/ exists new ps, mapM new_hole (map fst p) = Ok new /\
    concat (map snd new) = map fst ps /\ length ps = (3 * length p)%nat /\ length new = length p /\
    inv (l ++ map fst new) (q ++ ps) /\ trail l (map fst new).
Proof.
  induction p as [|[h D] p IH]; intros l q I.
  - right. exists [], []. cbn. rewrite !app_nil_r. cbn [app] in I. repeat (split; [auto|]). intros l1 c l2 E. destruct l1; discriminate.
  - cbn [map fst mapM app] in *. destruct (inv_step l h D (p ++ q) I) as [E|(c & hs & ps & E & Eh & L & I' & F & _)]; [left; rewrite E; auto|].
    rewrite E. cbn [bind]. rewrite <- app_assoc in I'. destruct (IH (l ++ [c]) (q ++ ps) I') as [E2|(new & ps2 & E2 & Ec & L2 & L2' & I2 & T2)]; [left; rewrite E2; auto|].
    right. exists ((c, hs) :: new), (ps ++ ps2). rewrite E2. cbn [bind map fst snd concat length]. split; [auto|]. split; [rewrite map_app, Eh, Ec; auto|].
    split; [rewrite app_length; lia|]. split; [lia|]. split.
    + rewrite <- !app_assoc in I2. cbn [app] in I2. auto.
    + apply (trail_app l [c]); auto. apply trail_1. auto.
Qed.

Fixpoint gen_count (n depth : nat) : nat := match depth with O => O | S d => (n + gen_count (3 * n) d)%nat end.

Lemma inv_generations depth : forall l p, inv l p ->
  generations (map fst p) depth = Raise ValueError \/ exists new ps, generations (map fst p) depth = Ok new /\
    length new = gen_count (length p) depth /\ inv (l ++ new) ps /\ trail l new.
Proof.
  induction depth as [|depth IH]; intros l p I.
  - right. exists [], p. cbn. rewrite app_nil_r. repeat (split; [auto|]). intros l1 c l2 E. destruct l1; discriminate.
  - cbn [generations]. rewrite <- (app_nil_r p) in I. destruct (inv_gen p l [] I) as [E|(new & ps & E & Ec & L & L' & I' & T)]; [left; rewrite E; auto|].
    rewrite E. cbn [bind]. rewrite Ec. cbn [app] in I'. destruct (IH _ _ I') as [E2|(new2 & ps2 & E2 & L2 & I2 & T2)]; [left; rewrite E2; auto|].
    right. rewrite E2. cbn [bind]. exists (map fst new ++ new2), ps2. split; [auto|]. cbn [gen_count]. rewrite app_length, map_length, L', L2, L. split; [auto|].
    rewrite app_assoc. split; [auto|]. apply trail_app; auto.
Qed.

Lemma gen_count_eq n d : (2 * gen_count n d + n = n * 3 ^ d)%nat.
Proof.
  revert n. induction d as [|d IH]; intros n; cbn [gen_count]; [rewrite Nat.pow_0_r; lia|]. specialize (IH (3 * n)%nat). rewrite Nat.pow_succ_r'. nia.
Qed.
End Generations.

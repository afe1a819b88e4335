(** * Specification of the circles of the Schottky group of Schottky.py. *)

From Coq Require Import Reals List.
From Verif Require Import Base Spec SpecMobius ModelCircle ModelSchottky.
Import ListNotations.
Local Open Scope R_scope.

(** ** Words *)

Definition linv (x : letter) : letter := match x with La => LA | LA => La | Lb => LB | LB => Lb end.

Definition letter_eqb (x y : letter) : bool :=
  match x, y with La, La | Lb, Lb | LA, LA | LB, LB => true | _, _ => false end.

(** no letter is followed by its inverse *)
Fixpoint reduced (w : list letter) : Prop :=
  match w with
  | x :: w' => match w' with y :: _ => y <> linv x | [] => True end /\ reduced w'
  | [] => True
  end.

(** ** Discs and transformations *)

(** centre and radius of the circle of the letter b; that of B is its mirror image *)
Definition rb (theta : R) : R := sqrt 2 / 4 * (3 - sin theta) / (1 + sin theta).
Definition ob (theta : R) : pt := (sqrt 2 * cos theta / (1 + sin theta), - rb theta).

(** the open disc of each letter: a half-plane for a *)
Definition letter_disc (theta : R) (x : letter) (P : ept) : Prop :=
  exists z, P = Pt z /\
  match x with
  | La => 0 < snd z
  | LA => dist (0, -3 * sqrt 2 / 4) z < sqrt 2 / 4
  | Lb => dist (ob theta) z < rb theta
  | LB => dist (- fst (ob theta), snd (ob theta)) z < rb theta
  end.

(** the transformations a: z -> (sqrt 2 z + i) / (- i z + sqrt 2), b: z -> p - r^2 / (z - p'), where
    p, p' are the centres of the circles of b and B; A and B are the inverse transformations *)
Definition map_a (P Q : ept) : Prop := mob_image (RtoC (sqrt 2)) Ci (- Ci)%C (RtoC (sqrt 2)) P Q.
Definition map_b (theta : R) (P Q : ept) : Prop :=
  let p := ob theta in
  let p' := (- fst p, snd p) in
  mob_image p (- (p * p') - RtoC (rb theta * rb theta))%C C1 (- p')%C P Q.
Definition gen_map (theta : R) (x : letter) (P Q : ept) : Prop :=
  match x with
  | La => map_a P Q
  | LA => map_a Q P
  | Lb => map_b theta P Q
  | LB => map_b theta Q P
  end.

(** the image of the disc of the last letter by the transformations of the others *)
Fixpoint region (theta : R) (w : list letter) (Q : ept) : Prop :=
  match w with
  | [] => False
  | x :: w' => match w' with [] => letter_disc theta x Q | _ :: _ => exists P, region theta w' P /\ gen_map theta x P Q end
  end.

(** the circle bounds the region of the word *)
Definition bounds (theta : R) (w : list letter) (c : circle) : Prop :=
  0 < cr c /\ forall Q, region theta w Q <-> exists z, Q = Pt z /\ dist (cO c) z < cr c.

(** the word whose region is bounded by the circle that the program computes for a word: the letters
    before the last one come in the reverse order, and the last letter disappears if it is the
    inverse of the first one *)
Definition drawn_word (w : list letter) : list letter :=
  match w with
  | [] => []
  | x :: _ => rev (removelast w) ++ (if letter_eqb (last w x) (linv x) then [] else [last w x])
  end.

(** ** Angles *)

(** the circles of b and B do not overlap (last condition), and are not smaller than 1 *)
Definition good_theta (theta : R) : Prop := sin theta <> 0 /\ sin theta <= 1 / 25 /\ 3 - sin theta <= 4 * cos theta.

(** the closed disc of each letter; the closed half-plane of a has the point at infinity *)
Definition letter_closed (theta : R) (x : letter) (P : ept) : Prop :=
  match P with
  | Inf => x = La
  | Pt z =>
      match x with
      | La => 0 <= snd z
      | LA => dist (0, -3 * sqrt 2 / 4) z <= sqrt 2 / 4
      | Lb => dist (ob theta) z <= rb theta
      | LB => dist (- fst (ob theta), snd (ob theta)) z <= rb theta
      end
  end.

(** the letters whose circles touch each other *)
Definition adjacent (x y : letter) : Prop := x <> y /\ x <> linv y.

(** one disc in the other *)
Definition disc_in (c c' : circle) : Prop := dist (cO c) (cO c') + cr c <= cr c'.

(** every word of n letters without cancellation, once *)
Definition all_words (n : nat) (ws : list (list letter)) : Prop :=
  NoDup ws /\ forall w, In w ws <-> length w = n /\ reduced w.

(** * Model of examples/Schottky.py: the circles of a Schottky group with two generators.
    The figures are not modelled: the picture is the list of the circles drawn, in order (and the
    line of [Ca]).  The number [n = 6] of line 18 and the angle [theta = -0.5] of line 56 are
    parameters.  sympy's free group is modelled by the [array_form] of its elements. *)

From Coq Require Import Reals List Bool ZArith.
From Verif Require Import Base ModelInternal ModelLine ModelCircle ModelEllipse ModelInversion ModelMobius ModelModular.
Import ListNotations.
Local Open Scope R_scope.

(** ** Words *)

(** Schottky.py:11, the two symbols *)
Inductive symb := Sa | Sb.
Definition symb_eqb (x y : symb) : bool :=
  match x, y with Sa, Sa | Sb, Sb => true | _, _ => false end.

(** an element of sympy's free group: its [array_form], the list of the pairs (symbol, power) *)
Definition fword := list (symb * Z).

(** equality of elements (line 37): equality of the [array_form] *)
Fixpoint fword_eqb (u v : fword) : bool :=
  match u, v with
  | [], [] => true
  | (x, i) :: u, (y, j) :: v => symb_eqb x y && Z.eqb i j && fword_eqb u v
  | _, _ => false
  end.

(** sympy's [zero_mul_simp], called by the product of two elements: [l] is the part up to the index,
    in the reverse order, [r] the part after the index *)
Fixpoint zero_mul_simp (l r : fword) : fword :=
  match r with
  | [] => rev l
  | (y, j) :: r' =>
      match l with
      | [] => r
      | (x, i) :: l' =>
          if symb_eqb x y
          then if Z.eqb (i + j) 0 then zero_mul_simp l' r' else zero_mul_simp ((x, (i + j)%Z) :: l') r'
          else rev l ++ r
      end
  end.
Definition fmul (u v : fword) : fword := zero_mul_simp (rev u) v.

(** Schottky.py:13-16 *)
Definition elems : list fword := [[(Sa, 1%Z)]; [(Sa, (-1)%Z)]; [(Sb, 1%Z)]; [(Sb, (-1)%Z)]].

(** [itertools.product(l, repeat=n)] *)
Fixpoint product {A} (l : list A) (n : nat) : list (list A) :=
  match n with
  | 0%nat => [[]]
  | S n => flat_map (fun x => map (cons x) (product l n)) l
  end.

(** [functools.reduce] without initial value *)
Definition reduce {A} (f : A -> A -> A) (l : list A) : res A :=
  match l with
  | [] => Raise TypeError
  | x :: l => Ok (fold_left f l x)
  end.

(** Schottky.py:22-23 *)
Definition multiply (l : list fword) : res fword := reduce fmul l.

(** Schottky.py:25-35: the loop on [j] deletes the elements after [L[i]] that are equal to it; the
    range of [i] is that of the initial list *)
Definition delete_after {A} (f : A -> A -> bool) (L : list A) (i : nat) : list A :=
  match nth_error L i with
  | None => L
  | Some x => firstn (S i) L ++ filter (fun y => negb (f x y)) (skipn (S i) L)
  end.
Definition unique_with {A} (f : A -> A -> bool) (L : list A) : list A :=
  fold_left (delete_after f) (seq 0 (length L - 1)) L.

(** Schottky.py:39-42 *)
Definition total (transfo : fword) : Z := fold_right Z.add 0%Z (map (fun x => Z.abs (snd x)) transfo).

(** Schottky.py:19-20, 37, 44-48 *)
Definition Gn (n : nat) : res (list fword) :=
  let! transfos := mapM multiply (product elems n) in
  Ok (filter (fun t => Z.eqb (total t) (Z.of_nat n)) (unique_with fword_eqb transfos)).

(** Schottky.py:75-80, the keys "a", "b", "A", "B" *)
Inductive letter := La | Lb | LA | LB.

(** Schottky.py:93-96 *)
Definition key (x : symb) (i : Z) : letter :=
  match x with
  | Sa => if Z.ltb i 0 then LA else La
  | Sb => if Z.ltb i 0 then LB else Lb
  end.

(** Schottky.py:89-98 *)
Definition transfo2seq (transfo : fword) : list letter :=
  flat_map (fun x => repeat (key (fst x) (snd x)) (Z.to_nat (Z.abs (snd x)))) transfo.

(** ** Circles *)

(** Schottky.py:52-73: [Ca], [CA], [Cb], [CB], then [Moba], [Mobb], [MobA], [MobB].  [T], [P] are
    numpy arrays and [xPprime] is a Python number. *)
Record schottky := mkSch { sCa : line; sCA : circle; sCb : circle; sCB : circle;
  sMoba : mobius; sMobb : mobius; sMobA : mobius; sMobB : mobius }.

Definition starting (theta : R) : res schottky :=
  let! Ca := Line_init (-1, 0) (1, 0) true true in
  let Rc := sqrt 2 / 4 in
  let yI := -3 * sqrt 2 / 4 in
  let! CA := Circle_init (0, yI) Rc in
  let T := (Rc * cos theta, yI + Rc * sin theta) in
  let P := (fst T + snd T * tan theta, 0) in
  let PT := distance_ T P in
  let xTprime := fst P + PT in
  let! xPprime := py_div (- yI) (tan theta) in
  let PprimeTprime := Rabs (xTprime - xPprime) in
  let! q := np_div (yI * PprimeTprime) xPprime in
  let Rcprime := Rabs q in
  let! Cb := Circle_init (xTprime, - Rcprime) Rcprime in
  let! CB := Circle_init (- xTprime, - Rcprime) Rcprime in
  let Moba := mkMob (RtoC (sqrt 2)) Ci (- Ci)%C (RtoC (sqrt 2)) in
  let Mobb := mkMob (complex_ (cO Cb)) (RtoC (dot_ (cO Cb) (cO Cb) - cr Cb * cr Cb)) C1 (- complex_ (cO CB))%C in
  Ok (mkSch Ca CA Cb CB Moba Mobb (inverse Moba) (inverse Mobb)).

(** Schottky.py:75-80 *)
Definition Mobs (s : schottky) (x : letter) : mobius :=
  match x with La => sMoba s | Lb => sMobb s | LA => sMobA s | LB => sMobB s end.

(** Schottky.py:82-87 *)
Definition Circles (s : schottky) (x : letter) : gcircle :=
  match x with La => GL (sCa s) | Lb => GC (sCb s) | LA => GC (sCA s) | LB => GC (sCB s) end.

(** [transform_line] or [transform_circle], according to the object *)
Definition transform_gc (fuel : nat) (M : mobius) (g : gcircle) : option (res gcircle) :=
  match g with
  | GL l => Some (transform_line M l)
  | GC c => transform_circle fuel M c
  end.

(** Schottky.py:100-106; [compose] is called with its default [left=True].  An empty [seq] has no
    last element: IndexError, never met after [reduce] has succeeded *)
Definition schottky_circle (fuel : nat) (s : schottky) (n : nat) (transfo : fword) : option (res gcircle) :=
  let seq := transfo2seq transfo in
  let mobs := map (Mobs s) seq in
  match reduce (fun M1 M2 => compose M1 M2 true) (firstn (n - 1) mobs) with
  | Raise e => Some (Raise e)
  | Ok mobius => transform_gc fuel mobius (Circles s (last seq La))
  end.

(** Schottky.py:117-156: the twelve circles drawn in red, green, blue and yellow *)
Definition twelve : list (letter * letter) :=
  [(LA, LA); (LA, LB); (LA, Lb); (La, La); (La, LB); (La, Lb);
   (Lb, La); (Lb, Lb); (Lb, LA); (LB, La); (LB, LA); (LB, LB)].

(** Schottky.py:109-163: the circles drawn, after the line [Ca].  [circ.center] raises
    AttributeError for a line. *)
Definition schottky_picture (fuel : nat) (theta : R) (n : nat) : option (res (list circle)) :=
  match Gn n, starting theta with
  | Raise e, _ => Some (Raise e)
  | _, Raise e => Some (Raise e)
  | Ok words, Ok s =>
      match in_turn (map (fun x => the_drawn (transform_gc fuel (Mobs s (fst x)) (Circles s (snd x)))) twelve ++
                     map (fun w => the_drawn (schottky_circle fuel s n w)) words) with
      | Some (Ok l) => Some (Ok ([sCA s; sCb s; sCB s] ++ l))
      | o => o
      end
  end.

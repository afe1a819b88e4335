(** * Model of the search for the smallest ellipse, with the code of the four boundary points. *)

From Coq Require Import Reals List Bool Arith.
From Verif Require Import Base ModelInternal ModelLine ModelCircle ModelAffine ModelEllipse ModelBoundary4.
Import ListNotations.
Local Open Scope R_scope.

(** geometry.py:1450-1463: the end of the recursion *)
Definition lj_stop (npfloat : bool) (argsort : list R -> list nat) (roots : R -> R -> R -> R -> list R)
    (eigh : mat2 -> eigh_res) (eigvals : mat2 -> R * R) (bpoints : list pt) : res (option ellipse) :=
  match bpoints with
  | [] | [_] | [_; _] => Ok None
  | [P1; P2; P3] => let! e := from_boundary3 eigh P1 P2 P3 in Ok (Some e)
  | [P1; P2; P3; P4] => let! e := from_boundary4 npfloat argsort roots eigh P1 P2 P3 P4 in Ok (Some e)
  | [P1; P2; P3; P4; P5] => let! e := ellipse_from_five_points eigvals P1 P2 P3 P4 P5 in Ok (Some e)
  | _ => Raise TypeError (* from_five_points( *bpoints ) with too many arguments *)
  end.

(** geometry.py:1429-1480 [LownerJohnEllipse]; [ch path] is the index drawn by [np.random.randint] at
    the recursive call reached by [path], as in [lowner_john] of ModelEllipse.v, where the call
    [from_boundary4] is replaced by its exception *)
Fixpoint lowner_full (npfloat : bool) (argsort : list R -> list nat) (roots : R -> R -> R -> R -> list R)
    (eigh : mat2 -> eigh_res) (eigvals : mat2 -> R * R) (ch : list bool -> nat) (n : nat) (path : list bool)
    (ipoints bpoints : list pt) : res (option ellipse) :=
  match n with
  | O => lj_stop npfloat argsort roots eigh eigvals bpoints
  | S n' =>
      if (5 <=? length bpoints)%nat then lj_stop npfloat argsort roots eigh eigvals bpoints
      else
        let i := Nat.modulo (ch path) (length ipoints) in
        let p := nth i ipoints (0, 0) in
        let ip := delete_nth i ipoints in
        let! r := lowner_full npfloat argsort roots eigh eigvals ch n' (true :: path) ip bpoints in
        let second (_ : unit) := lowner_full npfloat argsort roots eigh eigvals ch n' (false :: path) ip (bpoints ++ [p]) in
        match r with
        | Some e => if ellipse_contains e p then Ok (Some e) else second tt
        | None => second tt
        end
  end.

Definition LownerJohn_full npfloat argsort roots eigh eigvals ch (points : list pt) : res (option ellipse) :=
  lowner_full npfloat argsort roots eigh eigvals ch (length points) [] points [].

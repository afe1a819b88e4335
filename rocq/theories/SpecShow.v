(** * Specification of what is printed. *)

From Coq Require Import List String.
From Verif Require Import Base ModelShow.
Local Open Scope string_scope.

(** the first items of the printed lines *)
Definition labels (s : shown) : list item := map (fun l => hd (Str "") l) (printed s).

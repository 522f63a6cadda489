(** * Levels: how deep types are nested.

    src/types.rs:7-28: a [Type] is a tree of boxes and vectors; its derived Clone, [==], [has_any] and
    [most_specific] call themselves once per level. *)
From Verif Require Export Values.
Open Scope N_scope.

(** The levels of Arr and Tup in a type. *)
Fixpoint nested (t : ty) : N :=
  match t with
  | TArr t => 1 + nested t
  | TTup ts => 1 + fold_right N.max 0 (map nested ts)
  | _ => 0
  end.
(** The levels of the type of a value (an Obj has type Obj, whatever is in it). *)
Definition levels (v : value) : N := nested (get_type v).
Definition levels_all (vs : list value) : N := fold_right N.max 0 (map levels vs).

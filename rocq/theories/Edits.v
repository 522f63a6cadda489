(** * Edits: what an edit of a document can reach (specification). *)
From Verif Require Export Refactor Afresh.
From Coq Require String.
Import String.StringSyntax.
Open Scope N_scope.

(** ** Edits *)
(** Two versions of a document, item by item. *)
Inductive edit :=
| Kept (f : str) (e : expr)
| Changed (f : str) (e e' : expr)
| Removed (f : str) (e : expr)
| Added (f : str) (e : expr).
Definition before (l : list edit) : list (str * expr) :=
  flat_map (fun d => match d with Kept f e | Changed f e _ | Removed f e => [(f, e)] | Added _ _ => [] end) l.
Definition after (l : list edit) : list (str * expr) :=
  flat_map (fun d => match d with Kept f e | Changed f _ e | Added f e => [(f, e)] | Removed _ _ => [] end) l.

(** ** What an edit reaches *)
(** Does the expression use one of the names [T]? *)
Definition uses_any (T : list str) (e : expr) : bool := existsb (fun n => mem_str n T) (reads e ++ defines e).
(** The names that are reached: those that an edited item defines, and those of the kept items that use a name reached
    before them. *)
Fixpoint reached (T : list str) (l : list edit) : list str :=
  match l with
  | [] => T
  | Kept f e :: l => if uses_any T e then reached (f :: defines e ++ T) l else reached T l
  | Changed f e e' :: l => reached (f :: defines e ++ defines e' ++ T) l
  | Removed f e :: l | Added f e :: l => reached (f :: defines e ++ T) l
  end.
(** The fields whose names are not in [T], in their order. *)
Definition others (T : list str) (ps : list (str * value)) : list (str * value) := filter (fun p => negb (mem_str (fst p) T)) ps.
(** [o] and [o'] have the same fields, in the same order and with the same data, but for those in [T]; and the same parent,
    but if [^] is in [T]. *)
Definition same_but (T : list str) (o o' : obj) : Prop :=
  erase_pairs (others T (obj_pairs o)) = erase_pairs (others T (obj_pairs o')) /\
  (~ In (lit "^") T -> option_map erase_obj (obj_parent o) = option_map erase_obj (obj_parent o')).

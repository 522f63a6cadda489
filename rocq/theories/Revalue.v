(** * Revalue: other texts, fractions and truth values in a file (specification). *)
From Verif Require Export Syntax Reorg.
Open Scope N_scope.

(** The structure of a value: all of it (names, numbers that may be indices, types, identities) except which text a Str is,
    which number a Frac is and which truth value a Bool is. *)
Fixpoint structure (v : value) : value :=
  match v with
  | VNull => VNull
  | VInt z => VInt z
  | VBool _ => VBool false
  | VFrac _ => VFrac 0
  | VStr _ => VStr []
  | VArr (MkArr i t vs) => VArr (MkArr i t (map structure vs))
  | VTup (MkTup i ts vs) => VTup (MkTup i ts (map structure vs))
  | VObj o => VObj (structure_obj o)
  end
with structure_obj (o : obj) : obj :=
  match o with
  | MkObj i ps par => MkObj i (map (fun p => match p with (f, v) => (f, structure v) end) ps)
                              (match par with Some q => Some (structure_obj q) | None => None end)
  end.
Definition same_structure (o o' : obj) : Prop := structure_obj o = structure_obj o'.

(** [a'] is [a] with other texts, other fractions and other truth values written in it, at any places.  Includes remain as
    they are, with the path written out.  [dv]: whether there may be divisions. *)
Section R.
Variable dv : bool.
Inductive other_atom : atom -> atom -> Prop :=
| other_frac w w' q q' : num_value w = Some (VFrac q) -> num_value w' = Some (VFrac q') -> other_atom (ANum w) (ANum w')
| other_text cs cs' s s' : str_value cs = Some s -> str_value cs' = Some s' -> other_atom (AStr cs) (AStr cs')
| other_truth n n' b b' : assoc n constants = Some (VBool b) -> assoc n' constants = Some (VBool b') -> other_atom (AVar false n) (AVar false n')
| other_num w : other_atom (ANum w) (ANum w)
| other_var g n : other_atom (AVar g n) (AVar g n)
| other_dot g n a a' : other_atom a a' -> other_atom (ADot g n a) (ADot g n a')
| other_un op a a' : other_atom a a' -> other_atom (AUn op a) (AUn op a')
| other_arr es es' : other_list es es' -> other_atom (AArr es) (AArr es')
| other_tup es es' : other_list es es' -> other_atom (ATup es) (ATup es')
| other_obj its its' : other_items its its' -> other_atom (AObj its) (AObj its')
| other_inc k a p : includes_path k a p -> other_atom a a
with other_expr : expr -> expr -> Prop :=
| other_Ex a a' l l' : other_atom a a' -> other_ops l l' -> other_expr (Ex a l) (Ex a' l')
with other_ops : list (binop * atom) -> list (binop * atom) -> Prop :=
| other_ops_nil : other_ops [] []
| other_ops_cons op a a' l l' : (op = BDiv -> dv = true) -> other_atom a a' -> other_ops l l' -> other_ops ((op, a) :: l) ((op, a') :: l')
with other_list : list expr -> list expr -> Prop :=
| other_nil : other_list [] []
| other_cons e e' l l' : other_expr e e' -> other_list l l' -> other_list (e :: l) (e' :: l')
with other_items : list (str * expr) -> list (str * expr) -> Prop :=
| other_items_nil : other_items [] []
| other_items_cons h e e' l l' : other_expr e e' -> other_items l l' -> other_items ((h, e) :: l) ((h, e') :: l').
End R.

(** The same in the files of a project: also other texts in its text files. *)
Inductive other_contents (dv : bool) : contents -> contents -> Prop :=
| other_cstr t t' : other_contents dv (CStr t) (CStr t')
| other_cobj its its' : other_items dv its its' -> other_contents dv (CObj its) (CObj its')
| other_carr es es' : other_list dv es es' -> other_contents dv (CArr es) (CArr es')
| other_ctup es es' : other_list dv es es' -> other_contents dv (CTup es) (CTup es').
Definition other_archive (dv : bool) (ar ar' : archive) : Prop := forall full,
  match ar full, ar' full with Some c, Some c' => other_contents dv c c' | None, None => True | _, _ => False end.
(** The same structure up to the identity of containers. *)
Definition same_shape (o o' : obj) : Prop := erase_obj (structure_obj o) = erase_obj (structure_obj o').

(** Reading a value along a path: fields (also inherited), elements, parents. *)
Inductive way := ByField (f : str) | ByIndex (i : nat) | ToParent.
Definition go (v : value) (s : way) : option value :=
  match v, s with
  | VObj o, ByField f => obj_get o f
  | VObj o, ToParent => option_map VObj (obj_parent o)
  | VArr a, ByIndex i => nth_error (arr_values a) i
  | VTup t, ByIndex i => nth_error (tup_values t) i
  | _, _ => None
  end.
Fixpoint follow (v : value) (path : list way) : option value :=
  match path with [] => Some v | s :: path => match go v s with Some w => follow w path | None => None end end.
(** The identity of a container. *)
Definition identity (v : value) : option N :=
  match v with VArr a => Some (arr_id a) | VTup t => Some (tup_id t) | VObj o => Some (obj_id o) | _ => None end.
Definition names (v : value) : list str := match v with VObj o => map fst (obj_pairs o) | _ => [] end.
Definition as_int (v : value) : option Z := match v with VInt z => Some z | _ => None end.

(** * Constants: writing constants in other ways (specification). *)
From Verif Require Export Afresh.
From Coq Require Export Relations.Relation_Operators.
Open Scope N_scope.

Section C.
(** The value of an operand that is a constant: a number, a string, null, true or false, or a number with signs. *)
Fixpoint constant (a : atom) : option value :=
  match a with
  | ANum w => num_value w
  | AStr cs => option_map VStr (str_value cs)
  | AVar false n => assoc n constants
  | AUn op a => match constant a with Some v => un_value op v | None => None end
  | _ => None
  end.
(** [c] is the constant [a op b]. *)
Definition computes (a : atom) (op : binop) (b c : atom) : Prop :=
  exists v w u, constant a = Some v /\ constant b = Some w /\ op_value op v w = Some u /\ constant c = Some u.
(** The operators that follow do not bind more tightly. *)
Definition no_product (l : list (binop * atom)) : Prop := match l with (op, _) :: _ => is_priority op = false | [] => True end.

(** One constant is written in another way, or one operation on constants is computed in advance, somewhere. *)
Inductive rewrite_atom : atom -> atom -> Prop :=
| w_const a c v : constant a = Some v -> constant c = Some v -> rewrite_atom a c
| w_un op a a' : rewrite_atom a a' -> rewrite_atom (AUn op a) (AUn op a')
| w_dot g n a a' : rewrite_atom a a' -> rewrite_atom (ADot g n a) (ADot g n a')
| w_arr l1 e e' l2 : rewrite e e' -> rewrite_atom (AArr (l1 ++ e :: l2)) (AArr (l1 ++ e' :: l2))
| w_tup l1 e e' l2 : rewrite e e' -> rewrite_atom (ATup (l1 ++ e :: l2)) (ATup (l1 ++ e' :: l2))
| w_obj l1 f e e' l2 : rewrite e e' -> rewrite_atom (AObj (l1 ++ (f, e) :: l2)) (AObj (l1 ++ (f, e') :: l2))
| w_inc e e' p : rewrite e e' -> rewrite_atom (AInc e p) (AInc e' p)
| w_path e p p' : rewrite p p' -> rewrite_atom (AInc e (Some p)) (AInc e (Some p'))
with rewrite : expr -> expr -> Prop :=
| w_first a a' l : rewrite_atom a a' -> rewrite (Ex a l) (Ex a' l)
| w_operand a l1 op b b' l2 : rewrite_atom b b' -> rewrite (Ex a (l1 ++ (op, b) :: l2)) (Ex a (l1 ++ (op, b') :: l2))
(* a product at the beginning, or after a + or - *)
| w_product a op b c l : is_priority op = true -> computes a op b c -> rewrite (Ex a ((op, b) :: l)) (Ex c l)
| w_product_in z l1 op1 a op b c l : is_priority op1 = false -> is_priority op = true -> computes a op b c ->
    rewrite (Ex z (l1 ++ (op1, a) :: (op, b) :: l)) (Ex z (l1 ++ (op1, c) :: l))
(* a sum at the beginning *)
| w_sum a op b c l : is_priority op = false -> computes a op b c -> no_product l -> rewrite (Ex a ((op, b) :: l)) (Ex c l).

(** Documents, and the contents of files. *)
Inductive rewrite_items : list (str * expr) -> list (str * expr) -> Prop :=
| w_item l1 f e e' l2 : rewrite e e' -> rewrite_items (l1 ++ (f, e) :: l2) (l1 ++ (f, e') :: l2).
Inductive rewrite_contents : contents -> contents -> Prop :=
| w_text t : rewrite_contents (CStr t) (CStr t)
| w_cobj its its' : rewrite_items its its' -> rewrite_contents (CObj its) (CObj its')
| w_carr l1 e e' l2 : rewrite e e' -> rewrite_contents (CArr (l1 ++ e :: l2)) (CArr (l1 ++ e' :: l2))
| w_ctup l1 e e' l2 : rewrite e e' -> rewrite_contents (CTup (l1 ++ e :: l2)) (CTup (l1 ++ e' :: l2)).
(** Any number of times, in both directions. *)
Definition same_items : list (str * expr) -> list (str * expr) -> Prop := clos_refl_sym_trans _ rewrite_items.
Definition same_contents : contents -> contents -> Prop := clos_refl_sym_trans _ rewrite_contents.
(** The files of two projects, one by one. *)
Definition same_archive (ar ar' : archive) : Prop := forall full,
  match ar full, ar' full with Some c, Some c' => same_contents c c' | None, None => True | _, _ => False end.
End C.

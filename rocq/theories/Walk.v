(** * Walk: writing, comparing and looking up with a bounded call stack.

    The functions of Format.v, of [==] and of [Obj::get] once more, with the number of frames of these
    functions that are left.  [None] means that there was none left (the process dies) or, for the formatting
    functions, that the function panicked.  Closures and the functions of the standard library between two of these calls
    (Vec, Box, Arc, format!) are counted with the call they belong to. *)
From Verif Require Export Levels Format.
From Coq Require String.
Import String.StringSyntax.
Open Scope N_scope.

(** src/parse/format.rs:62-84 Value, 86-131 Arr, 133-173 Tup, 175-213 Obj, as in Format.v *)
Fixpoint value_format_within (k : nat) (ind : N) (v : value) {struct k} : option str :=
  match k with
  | O => None
  | S k =>
  match v with
  | VNull => Some (lit "null")
  | VBool true => Some (lit "true")
  | VBool false => Some (lit "false")
  | VInt z => Some (Z_to_dec z)
  | VFrac q => Some (format_frac q)
  | VStr s => Some (format_str s)
  | VArr a => arr_format_within k true ind a
  | VTup t => tup_format_within k true ind t
  | VObj o => obj_format_within k true ind o
  end
  end
with arr_format_within (k : nat) (full : bool) (ind : N) (a : arr) {struct k} : option str :=
  match k with
  | O => None
  | S k =>
  match a with
  | MkArr _ _ vs =>
      match vs with
      | [] => Some (if full then lit "[]" else [])
      | [v] =>
          opt_bind (value_format_within k ind v) (fun f =>
          Some (if full then lit "[" ++ f ++ lit "]" else f))
      | _ =>
          opt_bind (concat_opt (fun v =>
            opt_bind (value_format_within k (ind + INDENT_STEP) v) (fun f =>
            Some (indent ind ++ f ++ [c_nl]))) vs) (fun body =>
          let s := (if full then lit "[" ++ [c_nl] else []) ++ body in
          if full then
            opt_bind (if ind =? 0 then Some 0 else usub ind INDENT_STEP) (fun actual =>
            Some (s ++ indent actual ++ lit "]"))
          else Some s)
      end
  end
  end
with tup_format_within (k : nat) (full : bool) (ind : N) (t : tup) {struct k} : option str :=
  match k with
  | O => None
  | S k =>
  match t with
  | MkTup _ _ vs =>
      match vs with
      | [] => Some (if full then lit "()" else [])
      | [v] =>
          opt_bind (value_format_within k ind v) (fun f =>
          Some (if full then lit "(" ++ f ++ lit ")" else f))
      | _ =>
          opt_bind (concat_opt (fun v =>
            opt_bind (value_format_within k (ind + INDENT_STEP) v) (fun f =>
            Some (indent ind ++ f ++ [c_nl]))) vs) (fun body =>
          let s := (if full then lit "(" ++ [c_nl] else []) ++ body in
          if full then
            opt_bind (usub ind INDENT_STEP) (fun actual => Some (s ++ indent actual ++ lit ")"))
          else Some s)
      end
  end
  end
with obj_format_within (k : nat) (full : bool) (ind : N) (o : obj) {struct k} : option str :=
  match k with
  | O => None
  | S k =>
  match o with
  | MkObj _ ps par =>
      match ps, par with
      | [], None => Some (if full then lit "{}" else [])
      | _, _ =>
          opt_bind (match par with
                    | Some p =>
                        opt_bind (obj_format_within k true (ind + INDENT_STEP) p) (fun f =>
                        Some (indent ind ++ lit "^: " ++ f ++ [c_nl]))
                    | None => Some []
                    end) (fun parent_text =>
          opt_bind (concat_opt (fun p =>
            match p with
            | (field, v) =>
                opt_bind (value_format_within k (ind + INDENT_STEP) v) (fun f =>
                Some (indent ind ++ field ++ lit ": " ++ f ++ [c_nl]))
            end) ps) (fun body =>
          let s := (if full then lit "{" ++ [c_nl] else []) ++ parent_text ++ body in
          if full then
            opt_bind (usub ind INDENT_STEP) (fun actual => Some (s ++ indent actual ++ lit "}"))
          else Some s))
      end
  end
  end.
(** src/obj.rs:169-171 [Obj::write_to_string] *)
Definition write_within (k : nat) (o : obj) : option str := obj_format_within k false 0 o.
(** Display: src/value.rs:141-145, obj.rs:316-320 *)
Definition value_display_within (k : nat) (v : value) : option str := value_format_within k INDENT_STEP v.
Definition obj_display_within (k : nat) (o : obj) : option str := obj_format_within k true INDENT_STEP o.

(** [Vec<T> == Vec<T>] in the standard library: the lengths first, then the elements until two differ. *)
Fixpoint all_eq {A : Type} (f : A -> A -> option bool) (l m : list A) : option bool :=
  match l, m with
  | x :: l', y :: m' => match f x y with Some true => all_eq f l' m' | r => r end
  | _, _ => Some true
  end.
Definition vec_eq {A : Type} (f : A -> A -> option bool) (l m : list A) : option bool :=
  if negb (Nat.eqb (length l) (length m)) then Some false else all_eq f l m.

(** src/types.rs:203-231 [impl PartialEq for Type] *)
Fixpoint ty_eq_within (k : nat) (a b : ty) {struct k} : option bool :=
  match k with
  | O => None
  | S k =>
  match b with
  | TAny => Some true
  | _ =>
      match a with
      | TAny => Some true
      | TArr t1 => match b with TArr t2 => ty_eq_within k t1 t2 | _ => Some false end
      | TTup l1 => match b with TTup l2 => vec_eq (ty_eq_within k) l1 l2 | _ => Some false end
      | _ => Some (ty_is a b)
      end
  end
  end.
(** src/value.rs:12 (derived), src/arr.rs:155-164, src/tup.rs:122-131, src/obj.rs:333-352, src/obj.rs:17
    (derived, Pair) *)
Fixpoint value_eq_within (k : nat) (v w : value) {struct k} : option bool :=
  match k with
  | O => None
  | S k =>
  match v, w with
  | VNull, VNull => Some true
  | VBool a, VBool b => Some (Bool.eqb a b)
  | VInt a, VInt b => Some (Z.eqb a b)
  | VFrac a, VFrac b => Some (Qeq_bool a b)
  | VStr a, VStr b => Some (str_eqb a b)
  | VArr a, VArr b => arr_eq_within k a b
  | VTup a, VTup b => tup_eq_within k a b
  | VObj a, VObj b => obj_eq_within k a b
  | _, _ => Some false
  end
  end
with arr_eq_within (k : nat) (a b : arr) {struct k} : option bool :=
  match k with
  | O => None
  | S k =>
  match a, b with
  | MkArr _ t1 v1, MkArr _ t2 v2 =>
      match ty_eq_within k t1 t2 with
      | Some true => vec_eq (value_eq_within k) v1 v2
      | r => r
      end
  end
  end
with tup_eq_within (k : nat) (a b : tup) {struct k} : option bool :=
  match k with
  | O => None
  | S k =>
  match a, b with
  | MkTup _ t1 v1, MkTup _ t2 v2 =>
      match vec_eq (ty_eq_within k) t1 t2 with
      | Some true => vec_eq (value_eq_within k) v1 v2
      | r => r
      end
  end
  end
with obj_eq_within (k : nat) (a b : obj) {struct k} : option bool :=
  match k with
  | O => None
  | S k =>
  match a, b with
  | MkObj _ p1 par1, MkObj _ p2 par2 =>
      let pairs := vec_eq (fun x y => match x, y with
                     | (f, v), (g, w) => if str_eqb f g then value_eq_within k v w else Some false
                     end) p1 p2 in
      match par1, par2 with
      | Some q1, Some q2 =>
          match obj_eq_within k q1 q2 with
          | Some true => pairs
          | r => r
          end
      | None, None => pairs
      | _, _ => Some false
      end
  end
  end.

(** src/obj.rs:210-223 [Obj::get] *)
Fixpoint get_within (k : nat) (o : obj) (f : str) {struct k} : option (option value) :=
  match k with
  | O => None
  | S k =>
  match o with
  | MkObj _ ps par =>
      match assoc f ps with
      | Some v => Some (Some v)
      | None => match par with Some p => get_within k p f | None => Some None end
      end
  end
  end.

(** src/types.rs:6 (derived Clone), src/arr.rs:101-103, src/tup.rs:70-72, src/value.rs:92-105 [get_type] *)
Fixpoint ty_clone_within (k : nat) (t : ty) {struct k} : option ty :=
  match k with
  | O => None
  | S k =>
  match t with
  | TArr t => option_map TArr (ty_clone_within k t)
  | TTup ts =>
      option_map TTup ((fix go (l : list ty) : option (list ty) :=
        match l with
        | [] => Some []
        | x :: l' => match ty_clone_within k x, go l' with Some y, Some m => Some (y :: m) | _, _ => None end
        end) ts)
  | _ => Some t
  end
  end.
Definition get_type_within (k : nat) (v : value) : option ty :=
  match v with
  | VArr a => option_map TArr (ty_clone_within k (arr_inner_type a))
  | VTup t => ty_clone_within (S k) (TTup (tup_types t))
  | _ => Some (get_type v)
  end.

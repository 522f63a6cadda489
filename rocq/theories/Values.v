(** * Values: model of /repo/src/value.rs, arr.rs, tup.rs, obj.rs and macros.rs. *)
From Verif Require Export Types.
From Coq Require Import String.
Open Scope N_scope.

(** src/value.rs:13-34 [enum Value]; src/arr.rs:10-23 [Arr]; src/tup.rs:10-23 [Tup];
    src/obj.rs:18-36 [Pair], [Obj].  An [Arc<..Inner>] is represented by its contents together
    with the [id] that the constructor gave to that allocation: two handles to one allocation
    have the same id, and distinct allocations have distinct ids (see Runtime.v). *)
Inductive value :=
| VNull
| VBool (b : bool)
| VInt (z : Z)
| VFrac (q : Q)
| VStr (s : str)
| VArr (a : arr)
| VTup (t : tup)
| VObj (o : obj)
with arr := MkArr (a_id : N) (a_type : ty) (a_values : list value)
with tup := MkTup (t_id : N) (t_types : list ty) (t_values : list value)
with obj := MkObj (o_id : N) (o_pairs : list (str * value)) (o_parent : option obj).

Definition pair_t := (str * value)%type.

Definition arr_id (a : arr) : N := let 'MkArr i _ _ := a in i.           (* arr.rs:122-124 id *)
Definition arr_inner_type (a : arr) : ty := let 'MkArr _ t _ := a in t.   (* arr.rs:101-103 *)
Definition arr_values (a : arr) : list value := let 'MkArr _ _ v := a in v. (* arr.rs:76-78 values_ref *)
Definition tup_id (t : tup) : N := let 'MkTup i _ _ := t in i.           (* tup.rs:91-93 id *)
Definition tup_types (t : tup) : list ty := let 'MkTup _ l _ := t in l.   (* tup.rs:70-72 inner_type_vec *)
Definition tup_values (t : tup) : list value := let 'MkTup _ _ v := t in v. (* tup.rs:45-47 *)
Definition obj_id (o : obj) : N := let 'MkObj i _ _ := o in i.           (* obj.rs:297-299 id *)
Definition obj_pairs (o : obj) : list pair_t := let 'MkObj _ p _ := o in p. (* obj.rs:141-143 pairs_ref *)
Definition obj_parent (o : obj) : option obj := let 'MkObj _ _ p := o in p. (* obj.rs:248-253 get_parent *)

(** src/value.rs:92-105 [Value::get_type] *)
Definition get_type (v : value) : ty :=
  match v with
  | VNull => TNull
  | VBool _ => TBool
  | VInt _ => TInt
  | VFrac _ => TFrac
  | VStr _ => TStr
  | VArr a => TArr (arr_inner_type a)
  | VTup t => TTup (tup_types t)
  | VObj _ => TObj
  end.

(** src/error.rs:10-22 [enum OverError] *)
Inductive over_error :=
| OE_ArrOutOfBounds (i : N)
| OE_ArrTypeMismatch (expected found : ty)
| OE_FieldNotFound (f : str)
| OE_InvalidFieldName (f : str)
| OE_NoParentFound
| OE_ParseError (s : str)
| OE_TupOutOfBounds (i : N)
| OE_TupTypeMismatch (expected found : ty) (i : N)
| OE_TypeMismatch (expected found : ty)
| OE_IoError (s : str).

(** src/lib.rs:34 [OverResult<T>] *)
Inductive ores (A : Type) :=
| OOk (a : A)
| OErr (e : over_error).
Arguments OOk {A} a.
Arguments OErr {A} e.

(** src/value.rs:36-80 [get_fn!] instances and src/value.rs:109-138. *)
Definition get_bool (v : value) : ores bool :=
  match v with VBool b => OOk b | _ => OErr (OE_TypeMismatch TBool (get_type v)) end.
Definition get_int (v : value) : ores Z :=
  match v with VInt z => OOk z | _ => OErr (OE_TypeMismatch TInt (get_type v)) end.
Definition get_str (v : value) : ores str :=
  match v with VStr s => OOk s | _ => OErr (OE_TypeMismatch TStr (get_type v)) end.
Definition get_obj (v : value) : ores obj :=
  match v with VObj o => OOk o | _ => OErr (OE_TypeMismatch TObj (get_type v)) end.
(** src/value.rs:109-115 [get_frac]: an Int is converted with [frac!(i, 1)]. *)
Definition get_frac (v : value) : ores Q :=
  match v with
  | VFrac q => OOk q
  | VInt z => OOk (Qred (Qmake z 1))
  | _ => OErr (OE_TypeMismatch TFrac (get_type v))
  end.
Definition get_arr (v : value) : ores arr :=
  match v with VArr a => OOk a | _ => OErr (OE_TypeMismatch (TArr TAny) (get_type v)) end.
Definition get_tup (v : value) : ores tup :=
  match v with VTup t => OOk t | _ => OErr (OE_TypeMismatch (TTup []) (get_type v)) end.
(** src/value.rs:83-89 [is_null] *)
Definition is_null (v : value) : bool := match v with VNull => true | _ => false end.

(** Equality.  src/value.rs:12 (derived), src/arr.rs:155-164, src/tup.rs:122-131,
    src/obj.rs:333-352, src/obj.rs:17 (derived, Pair).  num-rational compares rationals by value. *)
Fixpoint value_eqb (v w : value) {struct v} : bool :=
  match v, w with
  | VNull, VNull => true
  | VBool a, VBool b => Bool.eqb a b
  | VInt a, VInt b => Z.eqb a b
  | VFrac a, VFrac b => Qeq_bool a b
  | VStr a, VStr b => str_eqb a b
  | VArr a, VArr b => arr_eqb a b
  | VTup a, VTup b => tup_eqb a b
  | VObj a, VObj b => obj_eqb a b
  | _, _ => false
  end
with arr_eqb (a b : arr) {struct a} : bool :=
  match a, b with
  | MkArr _ t1 v1, MkArr _ t2 v2 =>
      if negb (ty_eqb t1 t2) then false else list_eqb value_eqb v1 v2
  end
with tup_eqb (a b : tup) {struct a} : bool :=
  match a, b with
  | MkTup _ t1 v1, MkTup _ t2 v2 =>
      if negb (list_eqb ty_eqb t1 t2) then false else list_eqb value_eqb v1 v2
  end
with obj_eqb (a b : obj) {struct a} : bool :=
  match a, b with
  | MkObj _ p1 par1, MkObj _ p2 par2 =>
      match par1, par2 with
      | Some q1, Some q2 =>
          if negb (obj_eqb q1 q2) then false
          else list_eqb (fun x y => match x, y with (f, v), (g, w) => str_eqb f g && value_eqb v w end) p1 p2
      | None, None =>
          list_eqb (fun x y => match x, y with (f, v), (g, w) => str_eqb f g && value_eqb v w end) p1 p2
      | _, _ => false
      end
  end.

(** src/value.rs:199-235 [impl_eq_int!]: [v.to_<type>()] is [Some] iff the BigInt is in the range
    [lo..hi] of the native type, and then it is compared with the native number [n]. *)
Definition value_eq_native (lo hi : Z) (v : value) (n : Z) : bool :=
  match v with
  | VInt z =>
      match (if (lo <=? z)%Z && (z <=? hi)%Z then Some z else None) with
      | Some z' => Z.eqb z' n
      | None => false
      end
  | _ => false
  end.

(** ** Constructors.  All of them draw a fresh id (src/lib.rs:64-66 [gen_id]); here the id is an
    argument, the counter is threaded in Parser.v and Runtime.v. *)

(** src/arr.rs:65-73 [Arr::from_values_unchecked] *)
Definition arr_from_values_unchecked (id : N) (vs : list value) (t : ty) : arr := MkArr id t vs.

(** src/arr.rs:38-52, also src/parse/parser.rs:262-282 and 344-364: one step of the incremental
    type check.  [inl] is the new [(tcur, has_any)], [inr (tcur, tnew)] the mismatch. *)
Definition arr_check_step (tcur : ty) (any : bool) (tnew : ty) : (ty * bool) + (ty * ty) :=
  if any then
    match most_specific tcur tnew with
    | Some (t, any') => inl (t, any')
    | None => inr (tcur, tnew)
    end
  else if negb (ty_eqb tcur tnew) then inr (tcur, tnew) else inl (tcur, any).

Fixpoint arr_check (vs : list value) (tcur : ty) (any : bool) : ty + (ty * ty) :=
  match vs with
  | [] => inl tcur
  | v :: vs' =>
      match arr_check_step tcur any (get_type v) with
      | inl (t, any') => arr_check vs' t any'
      | inr e => inr e
      end
  end.

(** src/arr.rs:34-55 [Arr::from_values] *)
Definition arr_from_values (id : N) (vs : list value) : ores arr :=
  match arr_check vs TAny true with
  | inl t => OOk (arr_from_values_unchecked id vs t)
  | inr (t1, t2) => OErr (OE_ArrTypeMismatch t1 t2)
  end.

(** src/arr.rs:106-113 [len], [is_empty]; src/arr.rs:92-98 [Arr::get] *)
Definition arr_len (a : arr) : N := N.of_nat (List.length (arr_values a)).
Definition arr_get (a : arr) (i : N) : ores value :=
  if arr_len a <=? i then OErr (OE_ArrOutOfBounds i)
  else match nth_error (arr_values a) (N.to_nat i) with
       | Some v => OOk v
       | None => OErr (OE_ArrOutOfBounds i) (* unreachable: Rust's [index] would panic here *)
       end.

(** src/tup.rs:32-42 [Tup::from_values]; 75-82 [len]; 61-67 [Tup::get] *)
Definition tup_from_values (id : N) (vs : list value) : tup := MkTup id (map get_type vs) vs.
Definition tup_len (t : tup) : N := N.of_nat (List.length (tup_values t)).
Definition tup_get (t : tup) (i : N) : ores value :=
  if tup_len t <=? i then OErr (OE_TupOutOfBounds i)
  else match nth_error (tup_values t) (N.to_nat i) with
       | Some v => OOk v
       | None => OErr (OE_TupOutOfBounds i) (* unreachable: Rust's [index] would panic here *)
       end.

(** src/obj.rs:132-138 [Obj::from_pairs_unchecked]; 106-108 [Obj::empty] *)
Definition obj_from_pairs_unchecked (id : N) (ps : list pair_t) (par : option obj) : obj :=
  MkObj id ps par.
Definition obj_empty (id : N) : obj := MkObj id [] None.

(** src/obj.rs:116-124 [Obj::from_pairs] *)
Fixpoint obj_from_pairs_check `{Unicode} (ps : list pair_t) : option str :=
  match ps with
  | [] => None
  | (f, _) :: ps' => if negb (is_valid_field f) then Some f else obj_from_pairs_check ps'
  end.
Definition obj_from_pairs `{Unicode} (id : N) (ps : list pair_t) (par : option obj) : ores obj :=
  match obj_from_pairs_check ps with
  | Some f => OErr (OE_InvalidFieldName f)
  | None => OOk (obj_from_pairs_unchecked id ps par)
  end.

(** src/obj.rs:188-207 [len], [is_empty], [contains]; 243-245 [has_parent] *)
Definition obj_len (o : obj) : N := N.of_nat (List.length (obj_pairs o)).
Definition obj_is_empty (o : obj) : bool := match obj_pairs o with [] => true | _ => false end.
Definition obj_contains (o : obj) (f : str) : bool :=
  existsb (fun p => str_eqb f (fst p)) (obj_pairs o).
Definition obj_has_parent (o : obj) : bool :=
  match obj_parent o with Some _ => true | None => false end.

(** src/obj.rs:210-223 [Obj::get] *)
Fixpoint obj_get (o : obj) (f : str) {struct o} : option value :=
  match o with
  | MkObj _ ps par =>
      match assoc f ps with
      | Some v => Some v
      | None => match par with Some p => obj_get p f | None => None end
      end
  end.

(** src/obj.rs:227-240 [Obj::get_with_source] *)
Fixpoint obj_get_with_source (o : obj) (f : str) {struct o} : option (value * obj) :=
  match o with
  | MkObj _ ps par =>
      match assoc f ps with
      | Some v => Some (v, o)
      | None => match par with Some p => obj_get_with_source p f | None => None end
      end
  end.

(** src/obj.rs:38-53 [get_fn!]: the typed getters of [Obj]. *)
Definition obj_get_typed {A : Type} (g : value -> ores A) (o : obj) (f : str) : ores A :=
  match obj_get o f with
  | Some v => match g v with OOk a => OOk a | OErr e => OErr e end
  | None => OErr (OE_FieldNotFound f)
  end.

(** src/obj.rs:305-307, arr.rs:130-132, tup.rs:99-101 [ptr_eq] (see the comment on [value]). *)
Definition obj_ptr_eq (a b : obj) : bool := obj_id a =? obj_id b.
Definition arr_ptr_eq (a b : arr) : bool := arr_id a =? arr_id b.
Definition tup_ptr_eq (a b : tup) : bool := tup_id a =? tup_id b.

(** src/macros.rs:94-124 [try_obj!]: the last "^" entry is the parent, the others are the pairs. *)
Fixpoint try_obj_split (es : list pair_t) (ps : list pair_t) (par : option value)
  : list pair_t * option value :=
  match es with
  | [] => (ps, par)
  | (f, v) :: es' =>
      if str_eqb f (lit "^") then try_obj_split es' ps (Some v)
      else try_obj_split es' (ps ++ [(f, v)]) par
  end.
Definition try_obj `{Unicode} (id : N) (es : list pair_t) : ores obj :=
  let '(ps, par) := try_obj_split es [] None in
  match par with
  | Some pv =>
      match get_obj pv with
      | OOk p => obj_from_pairs id ps (Some p)
      | OErr e => OErr e
      end
  | None => obj_from_pairs id ps None
  end.

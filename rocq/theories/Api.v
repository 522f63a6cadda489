(** * Api: conversions to and comparisons with native Rust values, macros, iteration.

    value.rs, arr.rs, tup.rs, obj.rs, macros.rs: the parts of the public API that Values.v leaves out. *)
From Verif Require Export Values.
Open Scope N_scope.

(** ** Native values that convert to a [Value] (src/value.rs:239-287) or compare with one (149-235). *)
Inductive int_kind := Usize | U8 | U16 | U32 | U64 | I8 | I16 | I32 | I64.
(** The ranges of the native integer types; [usize] is 64 bit. *)
Definition int_lo (k : int_kind) : Z :=
  match k with
  | I8 => - 2 ^ 7 | I16 => - 2 ^ 15 | I32 => - 2 ^ 31 | I64 => - 2 ^ 63
  | _ => 0
  end%Z.
Definition int_hi (k : int_kind) : Z :=
  match k with
  | U8 => 2 ^ 8 - 1 | U16 => 2 ^ 16 - 1 | U32 => 2 ^ 32 - 1 | U64 | Usize => 2 ^ 64 - 1
  | I8 => 2 ^ 7 - 1 | I16 => 2 ^ 15 - 1 | I32 => 2 ^ 31 - 1 | I64 => 2 ^ 63 - 1
  end%Z.
Inductive native :=
| NBool (b : bool)
| NInt (k : int_kind) (z : Z)
| NBigInt (z : Z)
| NBigRational (q : Q)
| NString (s : str)      (* String *)
| NStr (s : str)         (* &str *)
| NArr (a : arr)
| NTup (t : tup)
| NObj (o : obj).
(** A native integer is in its range; a [BigRational] is kept in lowest terms by num-rational. *)
Definition native_ok (n : native) : Prop :=
  match n with
  | NInt k z => (int_lo k <= z <= int_hi k)%Z
  | NBigRational q => Qred q = q
  | _ => True
  end.

(** src/value.rs:239-287 [impl_from!], [impl From<&str>] *)
Definition value_from (n : native) : value :=
  match n with
  | NBool b => VBool b
  | NInt _ z | NBigInt z => VInt z
  | NBigRational q => VFrac q
  | NString s | NStr s => VStr s
  | NArr a => VArr a
  | NTup t => VTup t
  | NObj o => VObj o
  end.

(** [BigInt::to_u8] etc.: the number if it is in the range. *)
Definition to_int (k : int_kind) (z : Z) : option Z :=
  if ((int_lo k <=? z) && (z <=? int_hi k))%Z then Some z else None.

(** src/value.rs:151-158, 179-186, 201-211: [impl PartialEq<T> for Value] ([value == native]) *)
Definition value_eq_to (v : value) (n : native) : bool :=
  match n with
  | NBool b => match v with VBool x => Bool.eqb x b | _ => false end
  | NInt k z => match v with
                | VInt x => match to_int k x with Some y => Z.eqb y z | None => false end
                | _ => false
                end
  | NBigInt z => match v with VInt x => Z.eqb x z | _ => false end
  | NBigRational q => match v with VFrac x => Qeq_bool x q | _ => false end
  | NString s => match v with VStr x => str_eqb x s | _ => false end
  | NStr s => match v with VStr x => str_eqb x s | _ => false end
  | NArr a => match v with VArr x => arr_eqb x a | _ => false end
  | NTup t => match v with VTup x => tup_eqb x t | _ => false end
  | NObj o => match v with VObj x => obj_eqb x o | _ => false end
  end.
(** src/value.rs:160-167, 188-195, 213-223: [impl PartialEq<Value> for T] ([native == value]); note that the
    code compares [value == self], not [self == value]. *)
Definition eq_to_value (n : native) (v : value) : bool :=
  match n, v with
  | NBool b, VBool x => Bool.eqb x b
  | NInt k z, VInt x => match to_int k x with Some y => Z.eqb y z | None => false end
  | NBigInt z, VInt x => Z.eqb x z
  | NBigRational q, VFrac x => Qeq_bool x q
  | NString s, VStr x => str_eqb x s
  | NStr s, VStr x => str_eqb x s
  | NArr a, VArr x => arr_eqb x a
  | NTup t, VTup x => tup_eqb x t
  | NObj o, VObj x => obj_eqb x o
  | _, _ => false
  end.

(** ** Macros (src/macros.rs).  [None] is a panic of [unwrap]. *)
Definition unwrap {A} (r : ores A) : option A := match r with OOk a => Some a | OErr _ => None end.
(** macros.rs:5-11 [int!] of a native integer; 16-20 [frac!] ([None]: [BigRational::new] panics on 0) *)
Definition int_macro (n : native) : option Z :=
  match n with NInt _ z | NBigInt z => Some z | _ => None end.
Definition frac_macro (a b : Z) : option Q := ratio_new a b.
(** macros.rs:45-54 [try_arr!], 28-39 [arr!], 60-69 [tup!], 77-88 [obj!] *)
Definition try_arr_macro (id : N) (es : list native) : ores arr := arr_from_values id (map value_from es).
Definition arr_macro (id : N) (es : list native) : option arr :=
  match es with
  | [] => unwrap (arr_from_values id [])
  | _ => unwrap (try_arr_macro id es)
  end.
Definition tup_macro (id : N) (es : list native) : tup := tup_from_values id (map value_from es).
Definition try_obj_macro `{Unicode} (id : N) (es : list (str * native)) : ores obj :=
  try_obj id (map (fun p => (fst p, value_from (snd p))) es).
Definition obj_macro `{Unicode} (id : N) (es : list (str * native)) : option obj :=
  match es with
  | [] => Some (obj_empty id)
  | _ => unwrap (try_obj_macro id es)
  end.

(** ** Iteration *)

(** [std::slice::Iter]: what is left between its two ends. *)
Definition slice_iter (A : Type) := list A.
Definition iter_next {A} (it : slice_iter A) : option A * slice_iter A :=
  match it with [] => (None, []) | x :: it' => (Some x, it') end.
Definition iter_next_back {A} (it : slice_iter A) : option A * slice_iter A :=
  match rev it with [] => (None, []) | x :: r => (Some x, rev r) end.
(** arr.rs:116-118, tup.rs:85-87, obj.rs:256-258 [iter] *)
Definition arr_iter (a : arr) : slice_iter value := arr_values a.
Definition tup_iter (t : tup) : slice_iter value := tup_values t.
Definition obj_iter (o : obj) : slice_iter pair_t := obj_pairs o.
(** arr.rs:81-88, tup.rs:50-57, obj.rs:176-183 [with_each]: [f] changes a state [S] (an [FnMut]). *)
Fixpoint for_each {A S} (f : S -> A -> S) (it : slice_iter A) (s : S) : S :=
  match it with
  | [] => s
  | x :: it' => for_each f it' (f s x)
  end.
Definition arr_with_each {S} (f : S -> value -> S) (a : arr) (s : S) : S := for_each f (arr_values a) s.
Definition tup_with_each {S} (f : S -> value -> S) (t : tup) (s : S) : S := for_each f (tup_values t) s.
Definition obj_with_each {S} (f : S -> str -> value -> S) (o : obj) (s : S) : S :=
  for_each (fun s p => f s (fst p) (snd p)) (obj_pairs o) s.
(** arr.rs:106-113, tup.rs:75-82: [is_empty] *)
Definition arr_is_empty (a : arr) : bool := match arr_values a with [] => true | _ => false end.
Definition tup_is_empty (t : tup) : bool := match tup_values t with [] => true | _ => false end.
(** arr.rs:27-29, 135-139, tup.rs:27-29, 104-108, obj.rs:310-314 [empty], [default] *)
Definition arr_empty (id : N) : arr := arr_from_values_unchecked id [] TAny.
Definition tup_empty (id : N) : tup := tup_from_values id [].
(** arr.rs:147-153 [TryFrom<Vec<Value>> for Arr], tup.rs:116-120 [From<Vec<Value>> for Tup] *)
Definition arr_try_from (id : N) (vs : list value) : ores arr := arr_from_values id vs.
Definition tup_from (id : N) (vs : list value) : tup := tup_from_values id vs.

(** ** Comparing errors: src/error.rs:9 [derive(PartialEq, Eq)] on [OverError]: the same variant, with fields compared in
    order; types with [PartialEq for Type] (src/types.rs:186-232), indices and Strings exactly.  src/obj.rs:17
    [derive(PartialEq)] on [Pair]. *)
Definition over_error_eqb (e1 e2 : over_error) : bool :=
  match e1, e2 with
  | OE_ArrOutOfBounds i, OE_ArrOutOfBounds j => i =? j
  | OE_ArrTypeMismatch a b, OE_ArrTypeMismatch c d => ty_eqb a c && ty_eqb b d
  | OE_FieldNotFound f, OE_FieldNotFound g => str_eqb f g
  | OE_InvalidFieldName f, OE_InvalidFieldName g => str_eqb f g
  | OE_NoParentFound, OE_NoParentFound => true
  | OE_ParseError s, OE_ParseError t => str_eqb s t
  | OE_TupOutOfBounds i, OE_TupOutOfBounds j => i =? j
  | OE_TupTypeMismatch a b i, OE_TupTypeMismatch c d j => ty_eqb a c && ty_eqb b d && (i =? j)
  | OE_TypeMismatch a b, OE_TypeMismatch c d => ty_eqb a c && ty_eqb b d
  | OE_IoError s, OE_IoError t => str_eqb s t
  | _, _ => false
  end.
Definition obj_pair_eqb (p q : pair_t) : bool := str_eqb (fst p) (fst q) && value_eqb (snd p) (snd q).

(** * Clients: programs that use the library through its API, without asking for identity (specification of C78). *)
From Verif Require Export Api Parser Format.
Open Scope N_scope.

(** A value that a program writes down itself. *)
Inductive scalar := SNull | SBool (b : bool) | SInt (z : Z) | SFrac (n d : Z) | SStr (s : str).

(** What a program can do with the values it holds, which are numbered in the order in which it got them.  Left out are
    [id], [ptr_eq], [num_references] (they are about identity), the [_unchecked] constructors and writing files. *)
Inductive call :=
| KScalar (s : scalar)                                   (* a literal, Value::from, frac! *)
| KArr (hs : list nat) | KTup (hs : list nat)            (* Arr::from_values, Tup::from_values *)
| KObj (fs : list (str * nat)) (par : option nat)        (* Obj::from_pairs *)
| KTryObj (es : list (str * nat))                        (* try_obj! *)
| KType (h : nat) | KNull (h : nat)                      (* get_type, is_null *)
| KGetBool (h : nat) | KGetInt (h : nat) | KGetFrac (h : nat) | KGetStr (h : nat)
| KGetArr (h : nat) | KGetTup (h : nat) | KGetObj (h : nat)     (* the typed getters of Value *)
| KLen (h : nat) | KEmpty (h : nat)                      (* len, is_empty of a container *)
| KElem (h : nat) (i : N)                                (* Arr::get, Tup::get *)
| KInner (h : nat)                                       (* inner_type, inner_type_vec *)
| KField (h : nat) (f : str) | KSource (h : nat) (f : str)      (* Obj::get, get_with_source *)
| KFieldBool (h : nat) (f : str) | KFieldInt (h : nat) (f : str) | KFieldFrac (h : nat) (f : str) | KFieldStr (h : nat) (f : str)
| KFieldArr (h : nat) (f : str) | KFieldTup (h : nat) (f : str) | KFieldObj (h : nat) (f : str)   (* the typed getters of Obj *)
| KContains (h : nat) (f : str) | KParent (h : nat)      (* contains, has_parent and get_parent *)
| KEach (h : nat)                                        (* iter, with_each, values_ref, pairs_ref *)
| KEq (h k : nat) | KEqTo (h : nat) (n : native) | KToEq (n : native) (h : nat)   (* ==, also with native scalars *)
| KShow (h : nat) | KWrite (h : nat)                     (* Display, write_to_string *)
| KLoad (text : str) | KLoadFile (path : str).           (* Obj::from_str, Obj::from_file *)

(** What it learns at once, apart from the values it is given. *)
Inductive obs :=
| OBool (b : bool) | ONum (n : N) | OInt (z : Z) | OFrac (q : Q) | OText (s : str) | OType (t : ty) | OError (e : over_error)
| OAbsent | OPanic | ONothing.   (* ONothing: the program would not compile: there is no such value, or it is of another kind *)

Definition native_scalar (n : native) : Prop := match n with NArr _ | NTup _ | NObj _ => False | _ => True end.
Definition scalar_only (k : call) : Prop := match k with KEqTo _ n | KToEq n _ => native_scalar n | _ => True end.

Definition give (v : value) : list obs * list value := ([], [v]).
Definition tell (o : obs) : list obs * list value := ([o], []).
Definition answer {A} (f : A -> list obs * list value) (r : ores A) : list obs * list value :=
  match r with OOk a => f a | OErr e => tell (OError e) end.
Definition answer_load (r : option (ores obj)) : list obs * list value :=
  match r with Some r => answer (fun o => give (VObj o)) r | None => tell OPanic end.
Definition text_of (s : option str) : obs := match s with Some t => OText t | None => OPanic end.
(** The values with these numbers, if there are such. *)
Fixpoint held (env : list value) (hs : list nat) : option (list value) :=
  match hs with
  | [] => Some []
  | h :: hs => match nth_error env h, held env hs with Some v, Some vs => Some (v :: vs) | _, _ => None end
  end.
Fixpoint held_pairs (env : list value) (fs : list (str * nat)) : option (list (str * value)) :=
  match fs with
  | [] => Some []
  | (f, h) :: fs => match nth_error env h, held_pairs env fs with Some v, Some vs => Some ((f, v) :: vs) | _, _ => None end
  end.
Definition with_value (env : list value) (h : nat) (f : value -> list obs * list value) : list obs * list value :=
  match nth_error env h with Some v => f v | None => tell ONothing end.
Definition with_obj (env : list value) (h : nat) (f : obj -> list obs * list value) : list obs * list value :=
  match nth_error env h with Some (VObj o) => f o | _ => tell ONothing end.

Section Do.
Context `{U : Unicode}.
(** One call: [g] is the state of the process, [id] the number a new container gets. *)
Definition do_call (fs : fsys) (g : gstate) (id : N) (env : list value) (k : call) : list obs * list value :=
  match k with
  | KScalar SNull => give VNull
  | KScalar (SBool b) => give (VBool b)
  | KScalar (SInt z) => give (VInt z)
  | KScalar (SStr s) => give (VStr s)
  | KScalar (SFrac n d) => match frac_macro n d with Some q => give (VFrac q) | None => tell OPanic end
  | KArr hs => match held env hs with Some vs => answer (fun a => give (VArr a)) (arr_from_values id vs) | None => tell ONothing end
  | KTup hs => match held env hs with Some vs => give (VTup (tup_from_values id vs)) | None => tell ONothing end
  | KObj fs None => match held_pairs env fs with Some ps => answer (fun o => give (VObj o)) (obj_from_pairs id ps None) | None => tell ONothing end
  | KObj fs (Some h) => with_obj env h (fun p =>
      match held_pairs env fs with Some ps => answer (fun o => give (VObj o)) (obj_from_pairs id ps (Some p)) | None => tell ONothing end)
  | KTryObj es => match held_pairs env es with Some ps => answer (fun o => give (VObj o)) (try_obj id ps) | None => tell ONothing end
  | KType h => with_value env h (fun v => tell (OType (get_type v)))
  | KNull h => with_value env h (fun v => tell (OBool (is_null v)))
  | KGetBool h => with_value env h (fun v => answer (fun b => tell (OBool b)) (get_bool v))
  | KGetInt h => with_value env h (fun v => answer (fun b => tell (OInt b)) (get_int v))
  | KGetFrac h => with_value env h (fun v => answer (fun b => tell (OFrac b)) (get_frac v))
  | KGetStr h => with_value env h (fun v => answer (fun b => tell (OText b)) (get_str v))
  | KGetArr h => with_value env h (fun v => answer (fun a => give (VArr a)) (get_arr v))
  | KGetTup h => with_value env h (fun v => answer (fun a => give (VTup a)) (get_tup v))
  | KGetObj h => with_value env h (fun v => answer (fun a => give (VObj a)) (get_obj v))
  | KLen h => with_value env h (fun v => match v with VArr a => tell (ONum (arr_len a)) | VTup t => tell (ONum (tup_len t)) | VObj o => tell (ONum (obj_len o)) | _ => tell ONothing end)
  | KEmpty h => with_value env h (fun v => match v with VArr a => tell (OBool (arr_is_empty a)) | VTup t => tell (OBool (tup_is_empty t)) | VObj o => tell (OBool (obj_is_empty o)) | _ => tell ONothing end)
  | KElem h i => with_value env h (fun v => match v with VArr a => answer give (arr_get a i) | VTup t => answer give (tup_get t i) | _ => tell ONothing end)
  | KInner h => with_value env h (fun v => match v with VArr a => tell (OType (arr_inner_type a)) | VTup t => (map OType (tup_types t), []) | _ => tell ONothing end)
  | KField h f => with_obj env h (fun o => match obj_get o f with Some v => give v | None => tell OAbsent end)
  | KSource h f => with_obj env h (fun o => match obj_get_with_source o f with Some (v, p) => ([], [v; VObj p]) | None => tell OAbsent end)
  | KFieldBool h f => with_obj env h (fun o => answer (fun b => tell (OBool b)) (obj_get_typed get_bool o f))
  | KFieldInt h f => with_obj env h (fun o => answer (fun b => tell (OInt b)) (obj_get_typed get_int o f))
  | KFieldFrac h f => with_obj env h (fun o => answer (fun b => tell (OFrac b)) (obj_get_typed get_frac o f))
  | KFieldStr h f => with_obj env h (fun o => answer (fun b => tell (OText b)) (obj_get_typed get_str o f))
  | KFieldArr h f => with_obj env h (fun o => answer (fun b => give (VArr b)) (obj_get_typed get_arr o f))
  | KFieldTup h f => with_obj env h (fun o => answer (fun b => give (VTup b)) (obj_get_typed get_tup o f))
  | KFieldObj h f => with_obj env h (fun o => answer (fun b => give (VObj b)) (obj_get_typed get_obj o f))
  | KContains h f => with_obj env h (fun o => tell (OBool (obj_contains o f)))
  | KParent h => with_obj env h (fun o => match obj_parent o with Some p => ([OBool (obj_has_parent o)], [VObj p]) | None => tell (OBool (obj_has_parent o)) end)
  | KEach h => with_value env h (fun v => match v with
      | VArr a => ([], arr_iter a) | VTup t => ([], tup_iter t)
      | VObj o => (map (fun p => OText (fst p)) (obj_iter o), map snd (obj_iter o)) | _ => tell ONothing end)
  | KEq h k => with_value env h (fun v => with_value env k (fun w => tell (OBool (value_eqb v w))))
  | KEqTo h n => with_value env h (fun v => tell (OBool (value_eq_to v n)))
  | KToEq n h => with_value env h (fun v => tell (OBool (eq_to_value n v)))
  | KShow h => with_value env h (fun v => tell (text_of (value_display v)))
  | KWrite h => with_obj env h (fun o => tell (text_of (write_to_string o)))
  | KLoad text => answer_load (from_str fs g text)
  | KLoadFile path => answer_load (from_file fs g path)
  end.

(** A program: what it does next, from all it has learned so far. *)
Definition client := list (list obs * nat) -> option call.
(** All that it learns in [n] calls: the observations, and how many values it was given.  At the k-th call the files
    are [fs k], the process is in state [gs k], and a new container gets the id [ids k]. *)

Fixpoint learns (fs : nat -> fsys) (gs : nat -> gstate) (ids : nat -> N) (c : client) (n : nat) (env : list value)
  (seen : list (list obs * nat)) : list (list obs * nat) :=
  match n with
  | O => seen
  | S n =>
      match c seen with
      | None => seen
      | Some k =>
          match do_call (fs (length seen)) (gs (length seen)) (ids (length seen)) env k with
          | (o, vs) => learns fs gs ids c n (env ++ vs) (seen ++ [(o, length vs)])
          end
      end
  end.
End Do.

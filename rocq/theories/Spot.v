(** * Spot: specification of the errors of a document.  Where the reader of a document can be, what it has
    read and evaluated there, and what is wrong with the text that follows.

    Sources: the error messages of /repo/src/parse/error.rs, /repo/tests/errors.rs and the comments of
    /repo/src/parse/parser.rs.  Texts, names and values are those of Syntax.v; nothing here refers to the
    functions of the parser. *)
From Verif Require Export AgreeTop.
From Coq Require String.
Import String.StringSyntax.
Open Scope N_scope.

(** ** Positions: the line and the column after reading a text *)
Definition line_of (t : str) : N := 1 + N.of_nat (count_occ N.eq_dec t c_nl).
Definition col_of (t : str) : N := fold_left (fun k c => if c =? c_nl then 1 else k + 1) t 1.
(** A bad character of a name or of an escape sequence that is a newline is reported in column 0 of the line
    it begins. *)
Definition char_line (t : str) (c : char) : N := if c =? c_nl then line_of t + 1 else line_of t.
Definition char_col (t : str) (c : char) : N := if c =? c_nl then 0 else col_of t.
(** Errors of the data operations carry the position in their text. *)
Definition data_fault (e : over_error) (pre : str) : pkind :=
  OverErrorKind (over_error_show e ++ lit " at line " ++ N_to_dec (line_of pre) ++ lit ", col " ++ N_to_dec (col_of pre)).

(** ** Places *)

(** What kind of value stands at a place: a whole one (after [name:] or in an include), an element of an Arr or
    Tup, an operand of an operator or sign, an index after a dot. *)
Inductive role := Whole | Element | Operand | Index.
(** [fields]: the fields in scope; [d]: the number of containers around; [close]: the bracket that closes the
    innermost one. *)
Inductive place :=
| InItems (fields : list pair_t) (parent : option obj) (d : N) (close : option char)
    (* among the items of an Obj (or the root); [fields], [parent]: those it has so far *)
| InArr (fields : list pair_t) (d : N) (els : list value)       (* among the elements of an Arr *)
| InTup (fields : list pair_t) (d : N) (els : list value)       (* among the elements of a Tup *)
| ArrFile (els : list value)                                    (* among the elements of a file included as Arr *)
| TupFile (els : list value)                                    (* among the elements of a file included as Tup *)
| InInc (fields : list pair_t) (d : N) (k : inc_ty)             (* after the keyword of an include *)
| AtValue (r : role) (fields : list pair_t) (d : N) (close : option char)  (* where a value begins *)
| AtName (dot : bool) (fields : list pair_t) (d : N) (close : option char) (* where a name begins; [dot]: after a dot *)
| InChain (fields : list pair_t) (d : N) (close : option char) (closed : bool)
    (terms : list (value * str * binop)) (cur : value) (pre : str).
    (* after an operand: [terms]: the finished terms of the sum, each with the text before it and the + or -
       after it; [cur]: the value of the term so far, [pre] the text before that term.  [closed]: the operand
       ends by itself (with a quote or bracket). *)

Section Spot.
Context `{U : Unicode}.
Variable fs : fsys.
Variable file : option str.
Notation inc := (include_meaning fs file).
Notation EA := (ev_atom inc limit64).
Notation EE := (ev_expr inc limit64).

Definition starts_name (c : char) : Prop := letter c \/ c = c_caret.
(** Characters with which some value begins. *)
Definition starts_value (c : char) : Prop :=
  letter c \/ is_numeric_char c = true \/ In c [c_at; c_quote; c_lbrace; c_lbrack; c_lparen; c_lt; c_plus; c_minus].
(** Characters that may follow a dot (of those, only letters, digits and @ can make sense). *)
Definition after_dot (c : char) : Prop := starts_name c \/ is_numeric_char c = true.
(** White space to the end of the text. *)
Definition blank (t : str) : Prop := exists w c, t = w ++ c /\ ws w /\ last_comment c.
Definition headed (P : char -> Prop) (t : str) : Prop := exists c r, t = c :: r /\ P c.
(** A value is complete: white space, the closing bracket or the end follows. *)
Definition complete (close : option char) (t : str) : Prop :=
  t = [] \/ headed (fun c => is_whitespace c = true \/ (is_end_delimiter c = true /\ Some c = close)) t.
(** An operand is complete. *)
Definition ended (t : str) : Prop := t = [] \/ headed (fun c => is_value_end_char c = true) t.
Definition solid_head (c : char) : Prop := is_whitespace c = false.
(** What the text at a place begins with. *)
Definition fits (pl : place) (R : str) : Prop :=
  match pl with
  | AtValue Whole _ _ _ => headed solid_head R
  | AtValue Element _ _ _ => headed (fun c => solid_head c /\ is_end_delimiter c = false) R
  | AtValue Operand _ _ _ => R <> []
  | AtValue Index _ _ _ => headed (fun c => after_dot c \/ c = c_at) R
  | AtName false _ _ _ => headed (fun c => letter c \/ c = c_at) R
  | AtName true _ _ _ => headed after_dot R
  | InChain _ _ _ closed _ _ _ => closed = true \/ ended R
  | _ => True
  end.
Definition spacious (pl : place) : Prop :=
  match pl with InItems _ _ _ _ | InArr _ _ _ | InTup _ _ _ | ArrFile _ | TupFile _ | InInc _ _ _ => True | _ => False end.

(** A name that an item may define. *)
Definition may_define (f : str) (fields : list pair_t) (parent : option obj) (globals : list (str * value)) : Prop :=
  match kind_of_item f with
  | KGlobal => assoc f globals = None
  | KParent => parent = None
  | KField => mem_str f (map fst fields) = false
  | KIllegal => False
  end.
Definition with_at (glob : bool) (n : str) : str := if glob then c_at :: n else n.

(** Where the reader of a text begins: a document (or a file included as Obj), a file included as Arr or Tup (a
    file included as Str is not read as a text of the language). *)
Definition starts (root : inc_ty) (pl : place) : Prop :=
  match root with
  | IObj => pl = InItems [] None 1 None
  | IArr => pl = ArrFile []
  | ITup => pl = TupFile []
  | IStr => False
  end.

(** [spot root x0 pl x P]: a reader of a text of kind [root] that starts in state [x0] is, after the text [P], at
    the place [pl] in state [x] (everything before was read and evaluated without error). *)
Inductive spot (root : inc_ty) (x0 : est) : place -> est -> str -> Prop :=
| spot_start pl : starts root pl -> spot root x0 pl x0 []
| spot_ws pl x P w : spot root x0 pl x P -> spacious pl -> ws w -> spot root x0 pl x (P ++ w)
(* items *)
| spot_item fields parent d close x P f w e t w' fields' parent' x' :
    spot root x0 (InItems fields parent d close) x P ->
    item_name f -> ws w -> r_expr e t -> ws w' -> w' <> [] ->
    ev_items (EE d) [(f, e)] fields parent x = Some ((fields', parent'), x') ->
    spot root x0 (InItems fields' parent' d close) x' (P ++ f ++ c_colon :: w ++ t ++ w')
| spot_item_value fields parent d close x P f w :
    spot root x0 (InItems fields parent d close) x P ->
    item_name f -> may_define f fields parent (fst x) -> ws w ->
    spot root x0 (AtValue Whole fields d close) x (P ++ f ++ c_colon :: w)
(* containers *)
| spot_obj r fields d close x P :
    spot root x0 (AtValue r fields d close) x P -> r <> Index -> d < 64 -> spot root x0 (InItems [] None (d + 1) (Some c_rbrace)) x (P ++ [c_lbrace])
| spot_arr r fields d close x P :
    spot root x0 (AtValue r fields d close) x P -> r <> Index -> d < 64 -> spot root x0 (InArr fields (d + 1) []) x (P ++ [c_lbrack])
| spot_arr_next fields d els x P e t v x' w :
    spot root x0 (InArr fields d els) x P ->
    r_expr e t -> EE d fields e x = Some (v, x') -> lub (map get_type (els ++ [v])) <> None -> ws w -> w <> [] ->
    spot root x0 (InArr fields d (els ++ [v])) x' (P ++ t ++ w)
| spot_arr_value fields d els x P :
    spot root x0 (InArr fields d els) x P -> spot root x0 (AtValue Element fields d (Some c_rbrack)) x P
| spot_tup r fields d close x P :
    spot root x0 (AtValue r fields d close) x P -> r <> Index -> d < 64 -> spot root x0 (InTup fields (d + 1) []) x (P ++ [c_lparen])
| spot_tup_next fields d els x P e t v x' w :
    spot root x0 (InTup fields d els) x P ->
    r_expr e t -> EE d fields e x = Some (v, x') -> ws w -> w <> [] ->
    spot root x0 (InTup fields d (els ++ [v])) x' (P ++ t ++ w)
| spot_tup_value fields d els x P :
    spot root x0 (InTup fields d els) x P -> spot root x0 (AtValue Element fields d (Some c_rparen)) x P
(* files of elements *)
| spot_arr_file_next els x P e t v x' w :
    spot root x0 (ArrFile els) x P ->
    r_expr e t -> EE 1 [] e x = Some (v, x') -> lub (map get_type (els ++ [v])) <> None -> ws w -> w <> [] ->
    spot root x0 (ArrFile (els ++ [v])) x' (P ++ t ++ w)
| spot_arr_file_value els x P :
    spot root x0 (ArrFile els) x P -> spot root x0 (AtValue Whole [] 1 None) x P
| spot_tup_file_next els x P e t v x' w :
    spot root x0 (TupFile els) x P ->
    r_expr e t -> EE 1 [] e x = Some (v, x') -> ws w -> w <> [] ->
    spot root x0 (TupFile (els ++ [v])) x' (P ++ t ++ w)
| spot_tup_file_value els x P :
    spot root x0 (TupFile els) x P -> spot root x0 (AtValue Whole [] 1 None) x P
(* includes *)
| spot_inc r fields d close x P w :
    spot root x0 (AtValue r fields d close) x P -> r <> Index -> d < 64 -> ws w ->
    spot root x0 (AtValue Whole fields (d + 1) (Some c_gt)) x (P ++ c_lt :: w)
| spot_inc_key r fields d close x P w e t o x' k x'' w' :
    spot root x0 (AtValue r fields d close) x P -> r <> Index -> d < 64 -> ws w ->
    r_expr e t -> EE (d + 1) fields e x = Some (VObj o, x') ->
    ev_keyword o [IObj; IStr; IArr; ITup] x' = Some (Some k, x'') -> ws w' -> w' <> [] ->
    spot root x0 (InInc fields (d + 1) k) x'' (P ++ c_lt :: w ++ t ++ w')
| spot_inc_value fields d k x P :
    spot root x0 (InInc fields d k) x P -> spot root x0 (AtValue Whole fields d (Some c_gt)) x P
(* signs, names and dots *)
| spot_sign r fields d close x P op :
    spot root x0 (AtValue r fields d close) x P -> r <> Index -> spot root x0 (AtValue Operand fields (d + 1) close) x (P ++ [unop_text op])
| spot_name r fields d close x P :
    spot root x0 (AtValue r fields d close) x P -> spot root x0 (AtName false fields d close) x P
| spot_member dot fields d close x P glob n o x' :
    spot root x0 (AtName dot fields d close) x P -> var_name glob n -> dot && glob = false ->
    ev_name fields glob n x = Some (VObj o, x') ->
    spot root x0 (AtName true (obj_pairs o) (d + 1) close) x' (P ++ with_at glob n ++ [c_dot])
| spot_index dot fields d close x P glob n v x' :
    spot root x0 (AtName dot fields d close) x P -> var_name glob n -> dot && glob = false ->
    ev_name fields glob n x = Some (v, x') -> match v with VArr _ | VTup _ => True | _ => False end ->
    spot root x0 (AtValue Index fields (d + 1) close) x' (P ++ with_at glob n ++ [c_dot])
(* operators *)
| spot_first r fields d close x P a t v x' :
    spot root x0 (AtValue r fields d close) x P -> match r with Whole | Element => True | _ => False end ->
    r_atom a t -> EA d fields a x = Some (v, x') ->
    spot root x0 (InChain fields d close (closed_atom a) [] v P) x' (P ++ t)
| spot_operand fields d close cl terms cur pre x P op :
    spot root x0 (InChain fields d close cl terms cur pre) x P -> spot root x0 (AtValue Operand fields d close) x (P ++ [op_text op])
| spot_term fields d close cl terms cur pre x P op a t v x' :
    spot root x0 (InChain fields d close cl terms cur pre) x P -> is_priority op = false ->
    r_atom a t -> EA d fields a x = Some (v, x') ->
    spot root x0 (InChain fields d close (closed_atom a) (terms ++ [(cur, pre, op)]) v (P ++ [op_text op])) x' (P ++ op_text op :: t)
| spot_factor fields d close cl terms cur pre x P op a t v x' p :
    spot root x0 (InChain fields d close cl terms cur pre) x P -> is_priority op = true ->
    r_atom a t -> EA d fields a x = Some (v, x') -> op_value op cur v = Some p ->
    spot root x0 (InChain fields d close (closed_atom a) terms p pre) x' (P ++ op_text op :: t).

(** ** Faults *)

(** What the text of a name in front of a colon may begin with: [f] can be completed to a name. *)
Definition name_part (f : str) : Prop := f = [] \/ f = [c_at] \/ item_name f.
(** [c] continues [f] neither as a name nor as the end of one. *)
Definition bad_in_name (f : str) (c : char) : Prop :=
  (f = [] /\ ~ starts_name c /\ c <> c_at /\ is_whitespace c = false /\ is_end_delimiter c = false) \/
  (f = [c_at] /\ ~ starts_name c) \/
  (item_name f /\ ~ letter_or_digit c /\ c <> c_colon).
(** The name [f] is complete: a colon or the end follows. *)
Definition named (R f : str) : Prop := item_name f /\ (R = f \/ exists r, R = f ++ c_colon :: r).

Inductive items_fault (fields : list pair_t) (parent : option obj) (d : N) (close : option char) (x : est) (P : str) :
  str -> pkind -> Prop :=
| if_end R : close <> None -> blank R -> items_fault fields parent d close x P R (UnexpectedEnd (line_of (P ++ R)))
| if_end_item f w e t u r : close <> None -> item_name f -> ws w -> r_expr e t -> blank u ->
    ev_items (EE d) [(f, e)] fields parent x = Some r ->
    items_fault fields parent d close x P (f ++ c_colon :: w ++ t ++ u) (UnexpectedEnd (line_of (P ++ f ++ c_colon :: w ++ t ++ u)))
| if_bracket c r : is_end_delimiter c = true -> (close = None \/ c <> c_rbrace) ->
    items_fault fields parent d close x P (c :: r) (InvalidClosingBracket close c (line_of P) (col_of P))
| if_char f c r : bad_in_name f c ->
    items_fault fields parent d close x P (f ++ c :: r) (InvalidFieldChar c (char_line (P ++ f) c) (char_col (P ++ f) c))
| if_lone_at : items_fault fields parent d close x P [c_at] (InvalidFieldName [c_at] (line_of P) (col_of P))
| if_name f R : named R f -> kind_of_item f = KIllegal ->
    items_fault fields parent d close x P R (InvalidFieldName f (line_of P) (col_of P))
| if_dup_global f R v : named R f -> kind_of_item f = KGlobal -> assoc f (fst x) = Some v ->
    items_fault fields parent d close x P R (DuplicateGlobal f (line_of P) (col_of P))
| if_dup_parent f R o : named R f -> kind_of_item f = KParent -> parent = Some o ->
    items_fault fields parent d close x P R (DuplicateField f (line_of P) (col_of P))
| if_dup_field f R : named R f -> kind_of_item f = KField -> In f (map fst fields) ->
    items_fault fields parent d close x P R (DuplicateField f (line_of P) (col_of P))
| if_no_colon f : item_name f -> may_define f fields parent (fst x) ->
    items_fault fields parent d close x P f (UnexpectedEnd (line_of (P ++ f)))
| if_no_value f u : item_name f -> may_define f fields parent (fst x) -> blank u ->
    items_fault fields parent d close x P (f ++ c_colon :: u) (UnexpectedEnd (line_of (P ++ f ++ c_colon :: u)))
| if_parent f w e t u v x' : item_name f -> kind_of_item f = KParent -> parent = None -> ws w -> r_expr e t -> complete close u ->
    EE d fields e x = Some (v, x') -> get_type v <> TObj ->
    items_fault fields parent d close x P (f ++ c_colon :: w ++ t ++ u)
      (data_fault (OE_TypeMismatch TObj (get_type v)) (P ++ f ++ c_colon :: w)).

(** *** Values *)
(** The text of a string that may go on. *)
Definition good_schar (y : schar) : Prop := schar_ok y /\ schar_value y <> None.
(** The text of a number that may go on. *)
Definition num_ok (w : str) : Prop :=
  num_text w /\ double_under w = false /\ (length (filter is_point w) <= 1)%nat.
(** Types in the message of an operator: an Int next to a Frac counts as a Frac. *)
Definition op_types (v w : value) : ty * ty :=
  match v, w with
  | VInt _, VFrac _ | VFrac _, VInt _ => (TFrac, TFrac)
  | _, _ => (get_type v, get_type w)
  end.
Definition is_zero (v : value) : bool :=
  match v with VInt z => Z.eqb z 0 | VFrac q => Qeq_bool q 0 | _ => false end.
Definition numeric (v : value) : bool := match v with VInt _ | VFrac _ => true | _ => false end.
Definition integral (v : value) : bool := match v with VInt _ => true | _ => false end.
(** The error of [v op w] (if there is one); [pre] is the text before [w]. *)
Definition op_fault (op : binop) (v w : value) (pre : str) : pkind :=
  if match op with
     | BDiv => numeric v && numeric w && is_zero w
     | BMod => integral v && integral w && is_zero w
     | _ => false
     end
  then InvalidNumeric (line_of pre) (col_of pre)
  else BinaryOperatorError (fst (op_types v w)) (snd (op_types v w)) op (line_of pre) (col_of pre).
(** The path of a file included as [f]. *)
Definition inc_path (f : str) : str := match file with Some g => beside g f | None => f end.
(** A path that names no file. *)
Definition no_file (f : str) : Prop := is_file fs (inc_path f) = false \/ canon fs (inc_path f) = None.
(** The files that are being read: this one and those that (transitively) include it. *)
Definition reading (x : est) : list str :=
  match file with
  | Some g =>
      match canon fs g with
      | Some c => if mem_str c (sh_open (snd x)) then sh_open (snd x) else c :: sh_open (snd x)
      | None => sh_open (snd x)
      end
  | None => sh_open (snd x)
  end.
(** A path that names one of the files that are being read. *)
Definition cyclic (f : str) (x : est) : Prop := exists full, canon fs (inc_path f) = Some full /\ In full (reading x).
(** What an include keyword or path may be. *)
Definition include_word (v : value) (x : est) : Prop :=
  match v with
  | VStr _ => True
  | VObj o => exists k x', ev_keyword o [IObj; IStr; IArr; ITup] x = Some (Some k, x')
  | _ => False
  end.

Inductive value_fault (fields : list pair_t) (d : N) (close : option char) (x : est) (P : str) : str -> pkind -> Prop :=
| vf_char c r : ~ starts_value c -> value_fault fields d close x P (c :: r) (InvalidValueChar c (line_of P) (col_of P))
(* strings *)
| vf_escape cs c r : Forall good_schar cs -> schar_value (SEsc c) = None ->
    let before := c_quote :: flat_map schar_text cs ++ [c_bslash] in
    value_fault fields d close x P (before ++ c :: r) (InvalidEscapeChar c (char_line (P ++ before) c) (char_col (P ++ before) c))
| vf_open_str cs u : Forall good_schar cs -> u = [] \/ u = [c_bslash] ->
    let all := c_quote :: flat_map schar_text cs ++ u in
    value_fault fields d close x P all (UnexpectedEnd (line_of (P ++ all)))
(* numbers *)
| vf_num_char w c r : num_ok w -> is_value_end_char c = false -> ~ num_ok (w ++ [c]) ->
    value_fault fields d close x P (w ++ c :: r) (InvalidValueChar c (line_of (P ++ w)) (col_of (P ++ w)))
| vf_num w r : num_ok w -> ended r -> digits w = [] -> value_fault fields d close x P (w ++ r) (InvalidNumeric (line_of P) (col_of P))
(* containers *)
| vf_deep c r : In c [c_lbrace; c_lbrack; c_lparen; c_lt] -> 64 <= d ->
    value_fault fields d close x P (c :: r) (MaxDepth (line_of P) (col_of P))
(* signs *)
| vf_sign_end op : value_fault fields d close x P [unop_text op] (UnexpectedEnd (line_of (P ++ [unop_text op])))
| vf_sign op a t r v x' : r_atom a t -> ended r \/ closed_atom a = true -> EA (d + 1) fields a x = Some (v, x') -> numeric v = false ->
    let pre := P ++ [unop_text op] in
    value_fault fields d close x P (unop_text op :: t ++ r) (UnaryOperatorError (get_type v) op (line_of pre) (col_of pre))
(* includes: <e ..> *)
| vf_inc_end u : d < 64 -> blank u -> value_fault fields d close x P (c_lt :: u) (UnexpectedEnd (line_of (P ++ c_lt :: u)))
| vf_inc_word w e t r v x' : d < 64 -> ws w -> r_expr e t -> complete (Some c_gt) r ->
    EE (d + 1) fields e x = Some (v, x') -> ~ include_word v x' ->
    let pre := P ++ c_lt :: w in
    value_fault fields d close x P (c_lt :: w ++ t ++ r) (InvalidIncludeToken (get_type v) (line_of pre) (col_of pre))
| vf_inc_open w e t u v x' : d < 64 -> ws w -> r_expr e t -> blank u -> EE (d + 1) fields e x = Some (v, x') -> include_word v x' ->
    let all := c_lt :: w ++ t ++ u in
    value_fault fields d close x P all (UnexpectedEnd (line_of (P ++ all)))
| vf_inc_close w e t w' c r f x' : d < 64 -> ws w -> r_expr e t -> ws w' -> w' <> [] -> EE (d + 1) fields e x = Some (VStr f, x') ->
    is_whitespace c = false -> c <> c_gt ->
    let pre := P ++ c_lt :: w ++ t ++ w' in
    value_fault fields d close x P (c_lt :: w ++ t ++ w' ++ c :: r) (InvalidClosingBracket (Some c_gt) c (line_of pre) (col_of pre))
| vf_inc_path w e t w' r f x' : d < 64 -> ws w -> r_expr e t -> ws w' -> EE (d + 1) fields e x = Some (VStr f, x') -> no_file f ->
    let pre := P ++ c_lt :: w in
    value_fault fields d close x P (c_lt :: w ++ t ++ w' ++ c_gt :: r) (InvalidIncludePath f (line_of pre) (col_of pre))
| vf_inc_cycle w e t w' r f x' : d < 64 -> ws w -> r_expr e t -> ws w' -> EE (d + 1) fields e x = Some (VStr f, x') -> cyclic f x' ->
    let pre := P ++ c_lt :: w in
    value_fault fields d close x P (c_lt :: w ++ t ++ w' ++ c_gt :: r) (CyclicInclude f (line_of pre) (col_of pre))
(* <keyword> *)
| vf_inc_bare w e t r o x' : d < 64 -> ws w -> r_expr e t -> EE (d + 1) fields e x = Some (VObj o, x') -> include_word (VObj o) x' ->
    let pre := P ++ c_lt :: w ++ t in
    value_fault fields d close x P (c_lt :: w ++ t ++ c_gt :: r) (InvalidValueChar c_gt (line_of pre) (col_of pre)).

(** After the keyword of an include *)
Inductive include_fault (fields : list pair_t) (d : N) (x : est) (P : str) : str -> pkind -> Prop :=
| nf_end u : blank u -> include_fault fields d x P u (UnexpectedEnd (line_of (P ++ u)))
| nf_open e t u v x' : r_expr e t -> blank u -> EE d fields e x = Some (v, x') ->
    include_fault fields d x P (t ++ u) (UnexpectedEnd (line_of (P ++ t ++ u)))
| nf_close e t w' c r v x' : r_expr e t -> ws w' -> w' <> [] -> EE d fields e x = Some (v, x') -> is_whitespace c = false -> c <> c_gt ->
    let pre := P ++ t ++ w' in
    include_fault fields d x P (t ++ w' ++ c :: r) (InvalidClosingBracket (Some c_gt) c (line_of pre) (col_of pre))
| nf_type e t w' r v x' : r_expr e t -> ws w' -> EE d fields e x = Some (v, x') -> get_type v <> TStr ->
    include_fault fields d x P (t ++ w' ++ c_gt :: r) (ExpectedType TStr (get_type v) (line_of P) (col_of P))
| nf_path e t w' r f x' : r_expr e t -> ws w' -> EE d fields e x = Some (VStr f, x') -> no_file f ->
    include_fault fields d x P (t ++ w' ++ c_gt :: r) (InvalidIncludePath f (line_of P) (col_of P))
| nf_cycle e t w' r f x' : r_expr e t -> ws w' -> EE d fields e x = Some (VStr f, x') -> cyclic f x' ->
    include_fault fields d x P (t ++ w' ++ c_gt :: r) (CyclicInclude f (line_of P) (col_of P)).

(** *** Names and dots *)
(** The name is complete: it has ended, or a dot follows after which something can stand. *)
Definition name_done (R : str) : Prop := ended R \/ exists c r, R = c_dot :: c :: r /\ (after_dot c \/ c = c_at).
Definition container (v : value) : bool := match v with VArr _ | VTup _ | VObj _ => true | _ => false end.
Definition out_of_bounds (v : value) (i : N) : over_error :=
  match v with VArr _ => OE_ArrOutOfBounds i | _ => OE_TupOutOfBounds i end.
Definition elements (v : value) : option (list value) :=
  match v with VArr a => Some (arr_values a) | VTup t => Some (tup_values t) | _ => None end.
Inductive name_fault (dot : bool) (fields : list pair_t) (d : N) (x : est) (P : str) : str -> pkind -> Prop :=
| mf_char glob n c r : dot && glob = false -> Forall letter_or_digit n -> with_at glob n <> [] \/ c <> c_at -> c <> c_dot -> is_value_end_char c = false -> ~ letter_or_digit c ->
    let pre := P ++ with_at glob n in
    name_fault dot fields d x P (with_at glob n ++ c :: r) (InvalidValueChar c (line_of pre) (col_of pre))
| mf_dot_end glob n : dot && glob = false -> Forall letter_or_digit n ->
    let all := with_at glob n ++ [c_dot] in
    name_fault dot fields d x P all (UnexpectedEnd (line_of (P ++ all)))
| mf_dot_char glob n c r : dot && glob = false -> Forall letter_or_digit n -> ~ after_dot c -> c <> c_at ->
    let pre := P ++ with_at glob n ++ [c_dot] in
    name_fault dot fields d x P (with_at glob n ++ c_dot :: c :: r) (InvalidValueChar c (line_of pre) (col_of pre))
| mf_lone_at R : dot = false -> name_done R -> name_fault dot fields d x P (c_at :: R) (InvalidValue [c_at] (line_of P) (col_of P))
| mf_global n R : dot = false -> Forall letter_or_digit n -> n <> [] -> name_done R -> assoc (c_at :: n) (fst x) = None ->
    name_fault dot fields d x P (c_at :: n ++ R) (GlobalNotFound (c_at :: n) (line_of P) (col_of P))
| mf_variable n R : Forall letter_or_digit n -> name_done R -> assoc n constants = None -> assoc n keywords = None ->
    assoc n fields = None ->
    name_fault dot fields d x P (n ++ R) (VariableNotFound n (line_of P) (col_of P))
| mf_dot glob n c r v x' : dot && glob = false -> var_name glob n -> after_dot c \/ c = c_at ->
    ev_name fields glob n x = Some (v, x') -> container v = false ->
    name_fault dot fields d x P (with_at glob n ++ c_dot :: c :: r) (InvalidDot (get_type v) (line_of P) (col_of P))
| mf_dot_global glob n r o x' : dot && glob = false -> var_name glob n -> ev_name fields glob n x = Some (VObj o, x') ->
    let pre := P ++ with_at glob n ++ [c_dot] in
    name_fault dot fields d x P (with_at glob n ++ c_dot :: c_at :: r) (InvalidValueChar c_at (line_of pre) (col_of pre))
| mf_index_type glob n a t r v x' i x'' : dot && glob = false -> var_name glob n -> ev_name fields glob n x = Some (v, x') ->
    elements v <> None -> dot_sub a -> r_atom a t -> ended r -> EA (d + 1) fields a x' = Some (i, x'') -> get_type i <> TInt ->
    let pre := P ++ with_at glob n ++ [c_dot] in
    name_fault dot fields d x P (with_at glob n ++ c_dot :: t ++ r) (ExpectedType TInt (get_type i) (line_of pre) (col_of pre))
| mf_index_bounds glob n a t r v vs x' i x'' : dot && glob = false -> var_name glob n -> ev_name fields glob n x = Some (v, x') ->
    elements v = Some vs -> dot_sub a -> r_atom a t -> ended r -> EA (d + 1) fields a x' = Some (VInt i, x'') ->
    (Z.of_nat (length vs) <= i < 2 ^ 64)%Z ->
    name_fault dot fields d x P (with_at glob n ++ c_dot :: t ++ r) (data_fault (out_of_bounds v (Z.to_N i)) (P ++ with_at glob n ++ [c_dot]))
| mf_index glob n a t r v x' i x'' : dot && glob = false -> var_name glob n -> ev_name fields glob n x = Some (v, x') ->
    elements v <> None -> dot_sub a -> r_atom a t -> ended r -> EA (d + 1) fields a x' = Some (VInt i, x'') ->
    (i < 0 \/ 2 ^ 64 <= i)%Z ->
    let pre := P ++ with_at glob n ++ [c_dot] in
    name_fault dot fields d x P (with_at glob n ++ c_dot :: t ++ r) (InvalidIndex i (line_of pre) (col_of pre)).

(** *** Elements *)
Inductive elems_fault (fields : list pair_t) (d : N) (close : char) (x : est) (P : str) : str -> pkind -> Prop :=
| ef_end R : blank R -> elems_fault fields d close x P R (UnexpectedEnd (line_of (P ++ R)))
| ef_bracket c r : is_end_delimiter c = true -> c <> close ->
    elems_fault fields d close x P (c :: r) (InvalidClosingBracket (Some close) c (line_of P) (col_of P)).
Inductive arr_fault (fields : list pair_t) (d : N) (els : list value) (x : est) (P : str) : str -> pkind -> Prop :=
| af_elems R k : elems_fault fields d c_rbrack x P R k -> arr_fault fields d els x P R k
| af_end e t u v x' : r_expr e t -> blank u -> EE d fields e x = Some (v, x') -> lub (map get_type (els ++ [v])) <> None ->
    arr_fault fields d els x P (t ++ u) (UnexpectedEnd (line_of (P ++ t ++ u)))
| af_type e t r v x' u : r_expr e t -> complete (Some c_rbrack) r -> EE d fields e x = Some (v, x') ->
    lub (map get_type els) = Some u -> lub (map get_type (els ++ [v])) = None ->
    arr_fault fields d els x P (t ++ r) (ExpectedType u (get_type v) (line_of P) (col_of P)).
Inductive tup_fault (fields : list pair_t) (d : N) (x : est) (P : str) : str -> pkind -> Prop :=
| tf_elems R k : elems_fault fields d c_rparen x P R k -> tup_fault fields d x P R k
| tf_end e t u v x' : r_expr e t -> blank u -> EE d fields e x = Some (v, x') ->
    tup_fault fields d x P (t ++ u) (UnexpectedEnd (line_of (P ++ t ++ u))).

(** Only the elements of a file included as Arr can be wrong together. *)
Inductive arr_file_fault (els : list value) (x : est) (P : str) : str -> pkind -> Prop :=
| xf_type e t r v x' u : r_expr e t -> complete None r -> EE 1 [] e x = Some (v, x') ->
    lub (map get_type els) = Some u -> lub (map get_type (els ++ [v])) = None ->
    arr_file_fault els x P (t ++ r) (ExpectedType u (get_type v) (line_of P) (col_of P)).

(** *** Operators *)
(** The first sum that fails, from left to right; [acc]: the sum so far and the operator after it. *)
Fixpoint sum_fault (acc : option (value * binop)) (terms : list (value * str * binop)) (cur : value) (pre : str) (x : est)
  : option pkind :=
  match terms with
  | [] =>
      match acc with
      | None => None
      | Some (s, op) => match ev_op op s cur x with Some _ => None | None => Some (op_fault op s cur pre) end
      end
  | (v, p, op') :: terms' =>
      match acc with
      | None => sum_fault (Some (v, op')) terms' cur pre x
      | Some (s, op) =>
          match ev_op op s v x with
          | Some (s', x') => sum_fault (Some (s', op')) terms' cur pre x'
          | None => Some (op_fault op s v p)
          end
      end
  end.
Inductive chain_fault (fields : list pair_t) (d : N) (close : option char) (terms : list (value * str * binop)) (cur : value) (pre : str)
  (x : est) (P : str) : str -> pkind -> Prop :=
| cf_char c r : is_value_end_char c = false ->
    chain_fault fields d close terms cur pre x P (c :: r) (InvalidValueChar c (line_of P) (col_of P))
| cf_bracket c r : is_end_delimiter c = true -> Some c <> close ->
    chain_fault fields d close terms cur pre x P (c :: r) (InvalidClosingBracket close c (line_of P) (col_of P))
| cf_end op : chain_fault fields d close terms cur pre x P [op_text op] (UnexpectedEnd (line_of (P ++ [op_text op])))
| cf_factor op a t r v x' : is_priority op = true -> r_atom a t -> ended r \/ closed_atom a = true ->
    EA d fields a x = Some (v, x') -> op_value op cur v = None ->
    chain_fault fields d close terms cur pre x P (op_text op :: t ++ r) (op_fault op cur v (P ++ [op_text op]))
| cf_sum R k : complete close R -> sum_fault None terms cur pre x = Some k -> chain_fault fields d close terms cur pre x P R k.

Definition fault (pl : place) (x : est) (P R : str) (k : pkind) : Prop :=
  match pl with
  | InItems fields parent d close => items_fault fields parent d close x P R k
  | InArr fields d els => arr_fault fields d els x P R k
  | InTup fields d els => tup_fault fields d x P R k
  | ArrFile els => arr_file_fault els x P R k
  | TupFile els => False
  | InInc fields d _ => include_fault fields d x P R k
  | AtValue _ fields d close => value_fault fields d close x P R k
  | AtName dot fields d close => name_fault dot fields d x P R k
  | InChain fields d close _ terms cur pre => chain_fault fields d close terms cur pre x P R k
  end.

(** A text of kind [root] has a fault of kind [k] (one of [file] itself: not one of a file it includes). *)
Definition faulty (root : inc_ty) (x0 : est) (text : str) (k : pkind) : Prop :=
  exists pl x P R, text = P ++ R /\ spot root x0 pl x P /\ fits pl R /\ fault pl x P R k.

(** ** Includes *)
(** [asks root x0 text k f x]: the reader of [text] comes to an include of [f] as [k], in state [x]. *)
Inductive asks (root : inc_ty) (x0 : est) (text : str) : inc_ty -> str -> est -> Prop :=
| asks_plain r fields d close x P w e t w' R f x' :  (* <path> *)
    spot root x0 (AtValue r fields d close) x P -> r <> Index -> d < 64 -> ws w -> r_expr e t -> ws w' ->
    EE (d + 1) fields e x = Some (VStr f, x') -> text = P ++ c_lt :: w ++ t ++ w' ++ c_gt :: R ->
    asks root x0 text IObj f x'
| asks_key fields d k x P e t w' R f x' :            (* <keyword path> *)
    spot root x0 (InInc fields d k) x P -> r_expr e t -> ws w' ->
    EE d fields e x = Some (VStr f, x') -> text = P ++ t ++ w' ++ c_gt :: R ->
    asks root x0 text k f x'.
(** The file [f] exists (its full name is [full]), is not being read and was not included before: it is read now. *)
Definition fresh_file (f : str) (x : est) (full : str) : Prop :=
  canon fs (inc_path f) = Some full /\ ~ In full (reading x) /\ assoc full (sh_vals (snd x)) = None.
(** The state with which it is read (the two last components of the log record the request and the opening). *)
Definition entering (full : str) (x : est) : shared :=
  mksh (sh_vals (snd x)) (reading x) (EOpen (Some full) :: ETry full :: sh_log (snd x)) (sh_g (snd x)).
End Spot.

(** [blame file root sh text e]: loading [text] (of [file], as [root], in state [sh]) fails with the error [e]: of
    the text itself, or of a file it includes, however deep. *)
Inductive blame `{U : Unicode} (fs : fsys) : option str -> inc_ty -> shared -> str -> perr -> Prop :=
| blame_here file root sh text k : faulty fs file root ([], sh) text k -> blame fs file root sh text (mkperr file k)
| blame_inside file root sh text ty f x full i fe text' e :
    asks fs file root ([], sh) text ty f x -> fresh_file fs file f x full ->
    fs_entry fs (inc_path file f) = Some (i, fe) -> fe_read fe = inl text' ->
    blame fs (Some (inc_path file f)) ty (entering fs file full x) text' e ->
    blame fs file root sh text e
| blame_unreadable file root sh text ty f x full i fe msg :
    asks fs file root ([], sh) text ty f x -> fresh_file fs file f x full ->
    fs_entry fs (inc_path file f) = Some (i, fe) -> fe_read fe = inr msg ->
    blame fs file root sh text (mkperr None (IoErrorKind msg)).

(** * Syntax: the language as a specification, independent of the parser.

    Abstract documents, the texts that render them, and their meaning.  Sources for the
    specification: /repo/README.md (language description) and the comments in
    /repo/src/parse/parser.rs; it does not follow the structure of the parser. *)
From Verif Require Export Parser ValueSpec.
From Coq Require String.
Import String.StringSyntax.
Open Scope N_scope.

(** ** Abstract syntax *)

(** A character of a string literal: itself, or an escape sequence. *)
Inductive schar := SPlain (c : char) | SEsc (c : char).

Inductive atom :=
| ANum (w : str)                                   (* 12_000   .5   1,25 *)
| AStr (cs : list schar)                           (* "text" *)
| AVar (glob : bool) (name : str)                  (* name  @name *)
| ADot (glob : bool) (name : str) (sub : atom)     (* name.sub *)
| AUn (op : unop) (a : atom)                       (* +a  -a *)
| AArr (es : list expr)                            (* [e e ..] *)
| ATup (es : list expr)                            (* (e e ..) *)
| AObj (items : list (str * expr))                 (* {name: e ..}; "^" the parent, "@.." globals *)
| AInc (e : expr) (path : option expr)             (* <e>  <e path> *)
with expr := Ex (a : atom) (l : list (binop * atom)).   (* a op a op a .. *)

(** ** Concrete syntax *)

Section Texts.
Context `{U : Unicode}.

(** White space: whitespace characters and comments, which end with their line. *)
Inductive ws : str -> Prop :=
| ws_nil : ws []
| ws_char c t : ch_is_whitespace c = true -> ws t -> ws (c :: t)
| ws_comment body t : Forall (fun c => c <> c_nl) body -> ws t -> ws (c_hash :: body ++ c_nl :: t).
(** A last comment that ends with the text. *)
Definition last_comment (t : str) : Prop :=
  t = [] \/ exists body, t = c_hash :: body /\ Forall (fun c => c <> c_nl) body.

Definition letter (c : char) : Prop := ch_is_alphabetic c = true \/ c = c_under.
Definition letter_or_digit (c : char) : Prop := letter c \/ is_digit c = true.

(** The text of a variable name (without '@'). *)
Definition var_name (glob : bool) (n : str) : Prop :=
  exists c r, n = c :: r /\ (if glob then letter_or_digit c else letter c) /\ Forall letter_or_digit r.
(** The text before the colon of an item. *)
Definition item_name (f : str) : Prop :=
  exists c r, (f = c :: r \/ f = c_at :: c :: r) /\ (letter c \/ c = c_caret) /\ Forall letter_or_digit r.

Definition op_text (op : binop) : char :=
  match op with BPlus => c_plus | BMinus => c_minus | BMult => c_star | BDiv => c_slash
              | BMod => c_percent end.
Definition unop_text (op : unop) : char := match op with UPlus => c_plus | UMinus => c_minus end.

Definition schar_text (x : schar) : str :=
  match x with SPlain c => [c] | SEsc c => [c_bslash; c] end.
Definition schar_ok (x : schar) : Prop :=
  match x with SPlain c => c <> c_quote /\ c <> c_bslash | SEsc c => True end.

(** What may be the text of a number: digits, points, commas and underscores, starting with a digit
    or a point. *)
Definition num_char (c : char) : bool := is_digit c || (c =? c_dot) || (c =? c_comma) || (c =? c_under).
Definition num_text (w : str) : Prop :=
  exists c r, w = c :: r /\ num_char c = true /\ c <> c_under /\ Forall (fun d => num_char d = true) r.

(** What may follow a dot. *)
Definition dot_sub (a : atom) : Prop :=
  match a with ANum _ | AVar _ _ | ADot _ _ _ => True | _ => False end.

(** Elements and items are followed by white space, which may be missing only after the last. *)
Inductive r_atom : atom -> str -> Prop :=
| r_num w : num_text w -> r_atom (ANum w) w
| r_str cs : Forall schar_ok cs ->
    r_atom (AStr cs) (c_quote :: flat_map schar_text cs ++ [c_quote])
| r_var glob n : var_name glob n -> r_atom (AVar glob n) ((if glob then [c_at] else []) ++ n)
| r_dot glob n sub t : var_name glob n -> dot_sub sub -> r_atom sub t ->
    r_atom (ADot glob n sub) ((if glob then [c_at] else []) ++ n ++ c_dot :: t)
| r_un op a t : r_atom a t -> r_atom (AUn op a) (unop_text op :: t)
| r_arr es w t : ws w -> r_elems es t -> r_atom (AArr es) (c_lbrack :: w ++ t ++ [c_rbrack])
| r_tup es w t : ws w -> r_elems es t -> r_atom (ATup es) (c_lparen :: w ++ t ++ [c_rparen])
| r_obj items w t : ws w -> r_items items t -> r_atom (AObj items) (c_lbrace :: w ++ t ++ [c_rbrace])
| r_inc1 e w t w' : ws w -> r_expr e t -> ws w' ->
    r_atom (AInc e None) (c_lt :: w ++ t ++ w' ++ [c_gt])
| r_inc2 e e2 w t w' t2 w2 : ws w -> r_expr e t -> ws w' -> w' <> [] -> r_expr e2 t2 -> ws w2 ->
    r_atom (AInc e (Some e2)) (c_lt :: w ++ t ++ w' ++ t2 ++ w2 ++ [c_gt])
with r_expr : expr -> str -> Prop :=
| r_ex a l t t' : r_atom a t -> r_chain l t' -> r_expr (Ex a l) (t ++ t')
with r_chain : list (binop * atom) -> str -> Prop :=
| r_cnil : r_chain [] []
| r_ccons op a l t t' : r_atom a t -> r_chain l t' -> r_chain ((op, a) :: l) (op_text op :: t ++ t')
with r_elems : list expr -> str -> Prop :=
| r_enil : r_elems [] []
| r_econs e es t w t' : r_expr e t -> ws w -> es = [] \/ w <> [] -> r_elems es t' ->
    r_elems (e :: es) (t ++ w ++ t')
with r_items : list (str * expr) -> str -> Prop :=
| r_inil : r_items [] []
| r_icons f e its w t w' t' : item_name f -> ws w -> r_expr e t -> ws w' -> its = [] \/ w' <> [] ->
    r_items its t' ->
    r_items ((f, e) :: its) (f ++ c_colon :: w ++ t ++ w' ++ t').

(** Operands that end by themselves. *)
Fixpoint closed_atom (a : atom) : bool :=
  match a with ANum _ | AVar _ _ | ADot _ _ _ => false | AUn _ a => closed_atom a | _ => true end.
(** A document: the items of the root. *)
Definition r_doc (items : list (str * expr)) (text : str) : Prop :=
  exists w t c, text = w ++ t ++ c /\ ws w /\ r_items items t /\ last_comment c.
(** The text of an Arr or Tup file. *)
Definition r_list (es : list expr) (text : str) : Prop :=
  exists w t c, text = w ++ t ++ c /\ ws w /\ r_elems es t /\ last_comment c.
End Texts.

(** ** Meaning *)

(** *** Literals *)

Definition escapes : list (char * char) :=
  [(c_bslash, c_bslash); (c_quote, c_quote); (c_apos, c_apos); (c_dollar, c_dollar);
   (c_n, c_nl); (c_r, c_cr); (c_t, c_tab)].
Definition schar_value (x : schar) : option char :=
  match x with
  | SPlain c => Some c
  | SEsc c => match find (fun p => fst p =? c) escapes with Some p => Some (snd p) | None => None end
  end.
(** All or nothing. *)
Fixpoint all_some {A} (l : list (option A)) : option (list A) :=
  match l with
  | [] => Some []
  | Some a :: l' => match all_some l' with Some r => Some (a :: r) | None => None end
  | None :: _ => None
  end.
Definition str_value (cs : list schar) : option str := all_some (map schar_value cs).

Definition is_point (c : char) : bool := (c =? c_dot) || (c =? c_comma).
Definition digits (w : str) : str := filter is_digit w.
(** two underscores in a row *)
Fixpoint double_under (w : str) : bool :=
  match w with
  | c :: ((d :: _) as w') => (c =? c_under) && (d =? c_under) || double_under w'
  | _ => false
  end.
(** the part before the first point and, if there is a point, the part after it *)
Fixpoint split_point (w : str) : str * option str :=
  match w with
  | [] => ([], None)
  | c :: w' => if is_point c then ([], Some w') else let '(a, b) := split_point w' in (c :: a, b)
  end.
Definition num_value (w : str) : option value :=
  if double_under w then None
  else match split_point w with
       | (a, None) => match digits a with [] => None | ds => Some (VInt (Z.of_N (dec_val ds))) end
       | (a, Some b) =>
           if existsb is_point b then None
           else match digits a ++ digits b with
                | [] => None
                | ds => Some (VFrac (Qred (Qmake (Z.of_N (dec_val ds))
                                                 (Z.to_pos (10 ^ Z.of_nat (length (digits b)))))))
                end
       end.

(** *** Operators *)

Definition un_value (op : unop) (v : value) : option value :=
  match v, op with
  | VInt z, UPlus => Some (VInt z)
  | VInt z, UMinus => Some (VInt (- z))
  | VFrac q, UPlus => Some (VFrac q)
  | VFrac q, UMinus => Some (VFrac (Qopp q))
  | _, _ => None
  end.

Definition as_frac (v : value) : option Q :=
  match v with VInt z => Some (Qmake z 1) | VFrac q => Some q | _ => None end.

(** The value of [v op w], except for Arr + Arr (below). *)
Definition op_value (op : binop) (v w : value) : option value :=
  match v, w with
  | VInt a, VInt b =>
      match op with
      | BPlus => Some (VInt (a + b))
      | BMinus => Some (VInt (a - b))
      | BMult => Some (VInt (a * b))
      | BDiv => if Z.eqb b 0 then None else Some (VFrac (Qred (Qmake a 1 / Qmake b 1)))
      | BMod => if Z.eqb b 0 then None else Some (VInt (Z.rem a b))
      end
  | VStr a, VStr b => match op with BPlus => Some (VStr (a ++ b)) | _ => None end
  | _, _ =>
      match as_frac v, as_frac w with
      | Some a, Some b =>
          match op with
          | BPlus => Some (VFrac (Qred (a + b)))
          | BMinus => Some (VFrac (Qred (a - b)))
          | BMult => Some (VFrac (Qred (a * b)))
          | BDiv => if Qeq_bool b 0 then None else Some (VFrac (Qred (a / b)))
          | BMod => None
          end
      | _, _ => None
      end
  end.

(** *** The state of an evaluation: the globals defined so far and the state shared by all files. *)
Definition est := (list (str * value) * shared)%type.
Definition ES (A : Type) := est -> option (A * est).
Definition eret {A} (a : A) : ES A := fun st => Some (a, st).
Definition efail {A} : ES A := fun _ => None.
Definition ebind {A B} (m : ES A) (f : A -> ES B) : ES B :=
  fun st => match m st with Some (a, st') => f a st' | None => None end.
Definition elift {A} (o : option A) : ES A := match o with Some a => eret a | None => efail end.
Notation "'do' x '<-' m ';;' k" := (ebind m (fun x => k)) (at level 200, x name, m at level 100, k at level 200).
Definition emap {A B} (f : A -> ES B) : list A -> ES (list B) :=
  fix go (l : list A) : ES (list B) :=
    match l with
    | [] => eret []
    | x :: l' => do y <- f x;; do ys <- go l';; eret (y :: ys)
    end.

(** A fresh id; the sentinel of an include keyword (created on first use). *)
Definition fresh : ES N := fun st =>
  let '(gl, sh) := st in
  let g := sh_g sh in
  Some (g_next g, (gl, set_g sh (bump g))).
Definition esentinel (k : inc_ty) : ES obj := fun st =>
  match g_sent (sh_g (snd st)) k with
  | Some i => Some (obj_empty i, st)
  | None =>
      let '(gl, sh) := st in
      Some (obj_empty (g_next (sh_g sh)), (gl, set_g sh (g_new_sent (sh_g sh) k)))
  end.
Definition eglobals : ES (list (str * value)) := fun st => Some (fst st, st).
Definition edefine (f : str) (v : value) : ES unit := fun st => Some (tt, ((f, v) :: fst st, snd st)).

(** *** Names *)
Definition constants : list (str * value) :=
  [(lit "null", VNull); (lit "true", VBool true); (lit "false", VBool false)].
Definition keywords : list (str * inc_ty) :=
  [(lit "Obj", IObj); (lit "Str", IStr); (lit "Arr", IArr); (lit "Tup", ITup)].

(** The value of a name, given the fields defined so far in the object around it. *)
Definition ev_name (fields : list pair_t) (glob : bool) (n : str) : ES value :=
  if glob then do g <- eglobals;; elift (assoc (c_at :: n) g)
  else match assoc n constants with
       | Some v => eret v
       | None =>
           match assoc n keywords with
           | Some k => do o <- esentinel k;; eret (VObj o)
           | None => elift (assoc n fields)
           end
       end.

(** *** Chains of operators *)

(** Arr + Arr is concatenation, a new Arr with the least common type. *)
Definition ev_op (op : binop) (v w : value) : ES value :=
  match op, v, w with
  | BPlus, VArr a, VArr b =>
      match most_specific (arr_inner_type a) (arr_inner_type b) with
      | Some (t, _) => do i <- fresh;; eret (VArr (MkArr i t (arr_values a ++ arr_values b)))
      | None => efail
      end
  | _, _, _ => elift (op_value op v w)
  end.

(** From left to right: [acc] is the sum so far with the + or - that follows it, [cur] the product
    being computed. *)
Definition add_up (acc : option (value * binop)) (cur : value) : ES value :=
  match acc with
  | Some (s, op) => ev_op op s cur
  | None => eret cur
  end.
Fixpoint ev_chain (acc : option (value * binop)) (cur : value) (l : list (binop * value)) : ES value :=
  match l with
  | [] => add_up acc cur
  | (op, w) :: l' =>
      if is_priority op then do p <- elift (op_value op cur w);; ev_chain acc p l'
      else do s <- add_up acc cur;; ev_chain (Some (s, op)) w l'
  end.

(** *** Indices *)
Definition ev_index (vs : list value) (i : value) : option value :=
  match i with
  | VInt z => if (0 <=? z)%Z && (z <? 2 ^ 64)%Z then nth_error vs (Z.to_nat z) else None
  | _ => None
  end.

(** *** Containers *)

(** Least common type. *)
Definition lub (ts : list ty) : option ty :=
  fold_left (fun o t => match o with
                        | Some u => match most_specific u t with Some (x, _) => Some x | None => None end
                        | None => None
                        end) ts (Some TAny).

Inductive item_kind := KGlobal | KParent | KField | KIllegal.
Definition kind_of_item (f : str) : item_kind :=
  match f with
  | 64 :: _ => KGlobal
  | [94] => KParent
  | 94 :: _ => KIllegal
  | _ => if mem_str f reserved_words then KIllegal else KField
  end.

(** Items from left to right: [fields] and [parent] are what has been defined so far; [ev] gives the
    value of an expression in that scope. *)
Definition ev_items (ev : list pair_t -> expr -> ES value) :
  list (str * expr) -> list pair_t -> option obj -> ES (list pair_t * option obj) :=
  fix go its fields parent :=
    match its with
    | [] => eret (fields, parent)
    | (f, e) :: its' =>
        match kind_of_item f with
        | KIllegal => efail
        | KGlobal =>
            do g <- eglobals;;
            match assoc f g with
            | Some _ => efail
            | None => do v <- ev fields e;; do _ <- edefine f v;; go its' fields parent
            end
        | KParent =>
            match parent with
            | Some _ => efail
            | None =>
                do v <- ev fields e;;
                match v with VObj o => go its' fields (Some o) | _ => efail end
            end
        | KField =>
            if mem_str f (map fst fields) then efail
            else do v <- ev fields e;; go its' (fields ++ [(f, v)]) parent
        end
    end.

(** *** Include keywords: which one (if any) an Obj is.  Asking creates the sentinels. *)
Fixpoint ev_keyword (o : obj) (ks : list inc_ty) : ES (option inc_ty) :=
  match ks with
  | [] => eret None
  | k :: ks' =>
      do s <- esentinel k;;
      if obj_id o =? obj_id s then eret (Some k) else ev_keyword o ks'
  end.

Section Eval.
(** What including a file of the given kind means. *)
Variable inc : inc_ty -> str -> ES value.

(** How many containers may be nested, the root included. *)
Variable lim : N -> bool.
Definition deep {A} (d : N) (m : ES A) : ES A := if lim d then m else efail.

(** [d]: number of containers around; [fields]: the fields in scope. *)
Fixpoint ev_atom (d : N) (fields : list pair_t) (a : atom) {struct a} : ES value :=
  match a with
  | ANum w => elift (num_value w)
  | AStr cs => elift (option_map VStr (str_value cs))
  | AVar glob n => ev_name fields glob n
  | ADot glob n sub =>
      do v <- ev_name fields glob n;;
      match v with
      | VArr a => do i <- ev_atom (d + 1) fields sub;; elift (ev_index (arr_values a) i)
      | VTup t => do i <- ev_atom (d + 1) fields sub;; elift (ev_index (tup_values t) i)
      | VObj o =>
          match sub with
          | AVar false _ | ADot false _ _ => ev_atom (d + 1) (obj_pairs o) sub
          | _ => efail
          end
      | _ => efail
      end
  | AUn op a => do v <- ev_atom (d + 1) fields a;; elift (un_value op v)
  | AArr es =>
      deep (d + 1) (
        do vs <- emap (ev_expr (d + 1) fields) es;;
        match lub (map get_type vs) with
        | Some t => do i <- fresh;; eret (VArr (MkArr i t vs))
        | None => efail
        end)
  | ATup es =>
      deep (d + 1) (
        do vs <- emap (ev_expr (d + 1) fields) es;;
        do i <- fresh;; eret (VTup (MkTup i (map get_type vs) vs)))
  | AObj items =>
      deep (d + 1) (
        do r <- ev_items (ev_expr (d + 1)) items [] None;;
        do i <- fresh;; eret (VObj (MkObj i (fst r) (snd r))))
  | AInc e path =>
      deep (d + 1) (
        do v <- ev_expr (d + 1) fields e;;
        match v with
        | VStr f => match path with None => inc IObj f | Some _ => efail end
        | VObj o =>
            do k <- ev_keyword o [IObj; IStr; IArr; ITup];;
            match k, path with
            | Some k, Some e2 =>
                do v2 <- ev_expr (d + 1) fields e2;;
                match v2 with VStr f => inc k f | _ => efail end
            | _, _ => efail
            end
        | _ => efail
        end)
  end
with ev_expr (d : N) (fields : list pair_t) (e : expr) {struct e} : ES value :=
  match e with
  | Ex a l =>
      do v <- ev_atom d fields a;;
      do vs <- emap (fun x => match x with (op, b) => do w <- ev_atom d fields b;; eret (op, w) end) l;;
      ev_chain None v vs
  end.

(** A document: an Obj one level deep. *)
Definition ev_doc (items : list (str * expr)) : ES obj :=
  do r <- ev_items (ev_expr 1) items [] None;;
  do i <- fresh;; eret (MkObj i (fst r) (snd r)).
(** The contents of an Arr file and of a Tup file. *)
Definition ev_arr_doc (es : list expr) : ES arr :=
  do vs <- emap (ev_expr 1 []) es;;
  match lub (map get_type vs) with
  | Some t => do i <- fresh;; eret (MkArr i t vs)
  | None => efail
  end.
Definition ev_tup_doc (es : list expr) : ES tup :=
  do vs <- emap (ev_expr 1 []) es;;
  do i <- fresh;; eret (MkTup i (map get_type vs) vs).
End Eval.

(** The limit of the implementation, and none. *)
Definition limit64 (d : N) : bool := d <=? 64.
Definition no_limit (d : N) : bool := true.

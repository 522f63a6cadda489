(** * Errors: model of /repo/src/error.rs and /repo/src/parse/error.rs, with their messages. *)
From Verif Require Export Values.
From Coq Require Import String.
Open Scope N_scope.

(** src/parse/mod.rs:28-31 [UnaryOp], 48-54 [BinaryOp] *)
Inductive unop := UPlus | UMinus.
Inductive binop := BPlus | BMinus | BMult | BDiv | BMod.

(** src/parse/mod.rs:57-62 [is_priority]; 72-81 [get_op] *)
Definition is_priority (op : binop) : bool :=
  match op with BMult | BDiv | BMod => true | _ => false end.
Definition get_op (c : char) : option binop :=
  if c =? c_plus then Some BPlus
  else if c =? c_minus then Some BMinus
  else if c =? c_star then Some BMult
  else if c =? c_slash then Some BDiv
  else if c =? c_percent then Some BMod
  else None.

(** src/parse/mod.rs:34-45, 84-98 Display *)
Definition unop_show (op : unop) : str :=
  lit "'" ++ match op with UPlus => lit "+" | UMinus => lit "-" end ++ lit "'".
Definition binop_show (op : binop) : str :=
  lit "'" ++ match op with
             | BPlus => lit "+" | BMinus => lit "-" | BMult => lit "*"
             | BDiv => lit "/" | BMod => lit "%"
             end ++ lit "'".

(** A literal double quote inside a message. *)
Definition dq : str := [34].

(** src/error.rs:24-51 Display for [OverError] *)
Definition over_error_show (e : over_error) : str :=
  match e with
  | OE_ArrOutOfBounds i => lit "Arr index " ++ N_to_dec i ++ lit " out of bounds"
  | OE_ArrTypeMismatch t1 t2 =>
      lit "Arr inner types do not match: expected " ++ ty_show t1 ++ lit ", found " ++ ty_show t2
  | OE_FieldNotFound f => lit "Field not found: " ++ dq ++ f ++ dq
  | OE_InvalidFieldName f => lit "Invalid field name: " ++ dq ++ f ++ dq
  | OE_NoParentFound => lit "No parent found for this obj"
  | OE_TupOutOfBounds i => lit "Tup index " ++ N_to_dec i ++ lit " out of bounds"
  | OE_TupTypeMismatch t1 t2 i =>
      lit "Tup inner types do not match at index " ++ N_to_dec i ++ lit ": expected " ++
      ty_show t1 ++ lit ", found " ++ ty_show t2
  | OE_TypeMismatch t1 t2 =>
      lit "Type mismatch: expected " ++ ty_show t1 ++ lit ", found " ++ ty_show t2
  | OE_ParseError s | OE_IoError s => s
  end.

(** src/parse/error.rs:16-42 [ParseErrorKind] *)
Inductive pkind :=
| BinaryOperatorError (t1 t2 : ty) (op : binop) (line col : N)
| CyclicInclude (f : str) (line col : N)
| DuplicateField (f : str) (line col : N)
| DuplicateGlobal (f : str) (line col : N)
| ExpectedType (t1 t2 : ty) (line col : N)
| GlobalNotFound (f : str) (line col : N)
| InvalidIndex (i : Z) (line col : N)
| InvalidClosingBracket (expected : option char) (found : char) (line col : N)
| InvalidDot (t : ty) (line col : N)
| InvalidEscapeChar (c : char) (line col : N)
| InvalidFieldChar (c : char) (line col : N)
| InvalidFieldName (f : str) (line col : N)
| InvalidIncludePath (f : str) (line col : N)
| InvalidIncludeToken (t : ty) (line col : N)
| InvalidNumeric (line col : N)
| InvalidValue (s : str) (line col : N)
| InvalidValueChar (c : char) (line col : N)
| MaxDepth (line col : N)
| UnaryOperatorError (t : ty) (op : unop) (line col : N)
| UnexpectedEnd (line : N)
| VariableNotFound (v : str) (line col : N)
| IoErrorKind (s : str)
| OverErrorKind (s : str)
| ParseIntErrorKind (s : str).

(** src/parse/error.rs:46-51 [ParseError] *)
Record perr := mkperr { e_file : option str; e_kind : pkind }.

(** src/parse/mod.rs:16 [MAX_DEPTH] *)
Definition MAX_DEPTH : N := 64.

(** " at line l, column c" *)
Definition at_line_col (l c : N) : str :=
  lit " at line " ++ N_to_dec l ++ lit ", column " ++ N_to_dec c.

(** src/parse/error.rs:53-176 Display for [ParseError] *)
Definition pkind_show `{Unicode} (k : pkind) : str :=
  match k with
  | BinaryOperatorError t1 t2 op l c =>
      lit "Could not apply operator " ++ binop_show op ++ lit " on types " ++ ty_show t1 ++
      lit " and " ++ ty_show t2 ++ at_line_col l c
  | CyclicInclude f l c =>
      lit "Tried to cyclically include file " ++ dq ++ f ++ dq ++ at_line_col l c
  | DuplicateField f l c => lit "Duplicate field " ++ dq ++ f ++ dq ++ at_line_col l c
  | DuplicateGlobal f l c => lit "Duplicate global " ++ dq ++ f ++ dq ++ at_line_col l c
  | ExpectedType t1 t2 l c =>
      lit "Expected " ++ ty_show t1 ++ at_line_col l c ++ lit "; found " ++ ty_show t2
  | GlobalNotFound v l c =>
      lit "Global " ++ dq ++ v ++ dq ++ at_line_col l c ++ lit " could not be found"
  | InvalidClosingBracket exp found l c =>
      lit "Invalid closing bracket '" ++ [found] ++ lit "'" ++ at_line_col l c ++
      lit "; expected " ++
      match exp with Some ch => lit "'" ++ [ch] ++ lit "'" | None => lit "none" end
  | InvalidDot t l c =>
      lit "Invalid use of dot notation on value of type " ++ ty_show t ++ at_line_col l c ++
      lit "; value must be an Obj, Arr, or Tup."
  | InvalidEscapeChar ch l c =>
      lit "Invalid escape character " ++ u_debug ch ++ lit " following backslash" ++
      at_line_col l c ++ lit ". If you meant to write a backslash, use '\\'"
  | InvalidFieldChar ch l c =>
      lit "Invalid character " ++ u_debug ch ++ lit " for field" ++ at_line_col l c
  | InvalidFieldName f l c => lit "Invalid field name " ++ dq ++ f ++ dq ++ at_line_col l c
  | InvalidIncludePath f l c => lit "Invalid include path " ++ dq ++ f ++ dq ++ at_line_col l c
  | InvalidIncludeToken t l c =>
      lit "Invalid value of type " ++ dq ++ ty_show t ++ dq ++ at_line_col l c ++
      lit "; must be either a Str value or one of the tokens " ++
      dq ++ lit "Obj" ++ dq ++ lit ", " ++ dq ++ lit "Arr" ++ dq ++ lit ", " ++
      dq ++ lit "Tup" ++ dq ++ lit ", or " ++ dq ++ lit "Str" ++ dq
  | InvalidIndex i l c => lit "Invalid index " ++ Z_to_dec i ++ at_line_col l c
  | InvalidNumeric l c => lit "Invalid numeric value" ++ at_line_col l c
  | InvalidValue v l c => lit "Invalid value " ++ dq ++ v ++ dq ++ at_line_col l c
  | InvalidValueChar ch l c =>
      lit "Invalid character " ++ u_debug ch ++ lit " for value" ++ at_line_col l c
  | MaxDepth l c =>
      lit "Exceeded maximum recursion depth (" ++ N_to_dec MAX_DEPTH ++ lit ")" ++ at_line_col l c
  | UnaryOperatorError t op l c =>
      lit "Could not apply operator " ++ unop_show op ++ lit " on type " ++ ty_show t ++
      at_line_col l c
  | UnexpectedEnd l => lit "Unexpected end at line " ++ N_to_dec l
  | VariableNotFound v l c =>
      lit "Variable " ++ dq ++ v ++ dq ++ at_line_col l c ++ lit " could not be found"
  | IoErrorKind s | OverErrorKind s | ParseIntErrorKind s => s
  end.

Definition perr_show `{Unicode} (e : perr) : str :=
  match e_file e with Some f => f ++ lit ": " | None => [] end ++ pkind_show (e_kind e).

(** src/parse/error.rs:182-187 [ParseError::from_over] *)
Definition from_over (e : over_error) (file : option str) (l c : N) : perr :=
  mkperr file (OverErrorKind (over_error_show e ++ lit " at line " ++ N_to_dec l ++
                              lit ", col " ++ N_to_dec c)).

(** src/error.rs:61-65 [impl From<ParseError> for OverError] *)
Definition over_from_parse `{Unicode} (e : perr) : over_error := OE_ParseError (perr_show e).

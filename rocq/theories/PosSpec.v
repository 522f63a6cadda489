(** * PosSpec: specification of positions in a text and of what an error may say about them. *)
From Verif Require Export Errors.
Open Scope N_scope.

Definition no_nl (t : str) : Prop := Forall (fun c => c <> c_nl) t.

(** [pos_at pre l c]: after reading [pre] one is at line [l] = 1 + the number of newlines in [pre],
    column [c] = 1 + the number of characters since the last newline. *)
Definition pos_at (pre : str) (l c : N) : Prop :=
  l = 1 + N.of_nat (count_occ N.eq_dec pre c_nl) /\
  exists lines last, pre = lines ++ last /\ no_nl last /\
    (lines = [] \/ exists lines', lines = lines' ++ [c_nl]) /\
    c = 1 + N.of_nat (length last).

(** [l], [c] is a position of the text [T]. *)
Definition at_pos (T : str) (l c : N) : Prop :=
  exists pre suf, T = pre ++ suf /\ pos_at pre l c.
(** The text [w] stands in [T] at line [l], column [c]. *)
Definition text_at (T w : str) (l c : N) : Prop :=
  exists pre suf, T = pre ++ w ++ suf /\ pos_at pre l c.
(** The character [x] stands in [T] at line [l], column [c]. *)
Definition char_at (T : str) (x : char) (l c : N) : Prop := text_at T [x] l c.
(** [l] is the number of the last line of [T]. *)
Definition last_line (T : str) (l : N) : Prop := exists c, pos_at T l c.
(** The exception: the position reported for an offending newline is column 0 of the line after. *)
Definition newline_before (T : str) (l c : N) : Prop :=
  c = 0 /\ exists pre suf, T = pre ++ c_nl :: suf /\ pos_at (pre ++ [c_nl]) l 1.

(** What a located error says about the text [T] it is about. *)
Definition located (T : str) (k : pkind) : Prop :=
  match k with
  | InvalidClosingBracket _ x l c => char_at T x l c
  | InvalidValueChar x l c => char_at T x l c
  | InvalidEscapeChar x l c | InvalidFieldChar x l c =>
      (x <> c_nl /\ char_at T x l c) \/ (x = c_nl /\ newline_before T l c)
  | DuplicateField f l c | DuplicateGlobal f l c | InvalidFieldName f l c => text_at T f l c
  | GlobalNotFound f l c | VariableNotFound f l c | InvalidValue f l c => text_at T f l c
  | UnexpectedEnd l => last_line T l
  | BinaryOperatorError _ _ _ l c | CyclicInclude _ l c | ExpectedType _ _ l c
  | InvalidIndex _ l c | InvalidDot _ l c | InvalidIncludePath _ l c | InvalidIncludeToken _ l c
  | InvalidNumeric l c | MaxDepth l c | UnaryOperatorError _ _ l c => at_pos T l c
  | OverErrorKind _ =>
      exists e l c, k = e_kind (from_over e None l c) /\ at_pos T l c
  | IoErrorKind _ | ParseIntErrorKind _ => False
  end.

(** * Stack: GENERATED by tools/gen_eq.py from Parser.v; do not edit.

    The mutually recursive functions of parser.rs once more, on a machine with a bounded call stack: [st] is
    the number of frames that are left.  Every call of one of the Rust functions that can call one another
    (parse_value, parse_unary_op, parse_obj, parse_field_value_pair, parse_arr, parse_tup, parse_variable,
    parse_include, and for included files parse_*_file and parse_obj_stream) needs a frame and gives it back
    when it returns; the loops inside these functions need none; a call without a frame left ends the process
    ([Panic]; in Rust: stack overflow).  The recursive functions on types (Clone, ==, has_any and most_specific,
    src/types.rs) need one frame for every level of the type they are called on ([spare]): get_type copies the
    type of an Arr or Tup, and the parser calls it on operands, on the elements of an Arr or Tup and for error
    messages.  The bodies are those of Parser.v, character by character, except for [frame], [spare] and the
    argument [st].  Not counted: functions that do not recurse, and destructors. *)
From Verif Require Export Parser Levels.
From Coq Require Import String.
Open Scope N_scope.

(** Call a function that needs a frame. *)
Definition frame {A : Type} (st : N) (body : N -> M A) : M A :=
  if st =? 0 then panic else body (st - 1).
(** Call a recursive function on a type of [n] levels: [n] frames, given back at once. *)
Definition spare (st : N) (n : N) : M unit := if n <=? st then ret tt else panic.

Section Stack.
Context `{U : Unicode}.
(** parser.rs:1168 *)
Definition st_unary_op_on_value (st : N) (v : value) (op : unop) (line col : N) : M value :=
  let* _ := spare st (levels v) in unary_op_on_value v op line col.
(** parser.rs:1194 *)
Definition st_binary_op_on_values (st : N) (val1 val2 : value) (op : binop) (line col : N) : M value :=
  let* _ := spare st (levels val1) in
  let* _ := spare st (levels val2) in
  binary_op_on_values val1 val2 op line col.
(** parser.rs:1040-1043 (the type is needed for the error only; an Obj and a Str have no levels) *)
Definition st_include_token (st : N) (v : value) (line col : N) : M (inc_ty + unit) :=
  let* _ := spare st (levels v) in include_token v line col.
(** parser.rs:883-888 and 912-917 (the type is needed for the error only; an Int has no levels) *)
Definition st_index_by (st : N) (get : N -> ores value) (idx : value) (line col : N) : M value :=
  let* _ := spare st (levels idx) in index_by get idx line col.
(** src/tup.rs:33: the types of all elements are copied *)
Definition st_new_tup (st : N) (vs : list value) : M tup :=
  let* _ := spare st (levels_all vs) in new_tup vs.
(** parser.rs:633-643, the final left-to-right evaluation: [vals] and [ops] are popped at the
    front. *)
Fixpoint st_eval_low_ops (st : N) (val1 : value) (vals : list (value * N * N)) (ops : list binop) : M value :=
  match ops with
  | [] => ret val1
  | op :: ops' =>
      match vals with
      | [] => panic                                  (* pop_front().unwrap() *)
      | (val2, line2, col2) :: vals' =>
          let* v := st_binary_op_on_values st val1 val2 op line2 col2 in
          st_eval_low_ops st v vals' ops'
      end
  end.

Variable fs : fsys.
(** The parse of an included file, with the frames that are left. *)
Variable load_inc : N -> inc_ty -> str -> shared -> outcome value * shared.

Fixpoint st_parse_value (fuel : nat) (st : N) (pairs : list pair_t) (line col : N) (depth : N)
  (cur_brace : option char) (is_first : bool) {struct fuel} : M value :=
  match fuel with
  | O => nofuel
  | S n => frame st (fun st =>
      (* parser.rs:541-585 *)
      let* ch := peek_unwrap in
      let* res :=
        (if ch =? c_quote then parse_str
         else if ch =? c_lbrace then st_parse_obj n st (depth + 1)
         else if ch =? c_lbrack then st_parse_arr n st pairs (depth + 1)
         else if ch =? c_lparen then st_parse_tup n st pairs (depth + 1)
         else if ch =? c_lt then st_parse_include n st pairs (depth + 1)
         else if ch =? c_plus then st_parse_unary_op n st pairs depth cur_brace UPlus
         else if ch =? c_minus then st_parse_unary_op n st pairs depth cur_brace UMinus
         else if is_numeric_char ch then parse_numeric line col
         else if is_valid_field_char ch true || (ch =? c_at) then
           st_parse_variable n st pairs line col depth cur_brace
         else fail (InvalidValueChar ch line col)) in
      (* parser.rs:588-647 *)
      if is_first then
        let* '(vals, ops) := st_parse_ops n st pairs depth cur_brace [(res, line, col)] [] in
        let* _ := check_value_end cur_brace in
        match vals with
        | [] => panic                                 (* val_deque.pop_front().unwrap() *)
        | (val1, _, _) :: vals' => st_eval_low_ops st val1 vals' ops
        end
      else ret res)
  end
(** parser.rs:593-627: the operator loop over the two deques. *)
with st_parse_ops (fuel : nat) (st : N) (pairs : list pair_t) (depth : N) (cur_brace : option char)
  (vals : list (value * N * N)) (ops : list binop) {struct fuel}
  : M (list (value * N * N) * list binop) :=
  match fuel with
  | O => nofuel
  | S n =>
      let* o := peek in
      match o with
      | None => ret (vals, ops)
      | Some c =>
          match get_op c with
          | None => ret (vals, ops)
          | Some op =>
              let* _ := next in
              let* o2 := peek in
              match o2 with
              | None => let* l := getline in fail (UnexpectedEnd l)
              | Some _ =>
                  let* '(line2, col2) := getpos in
                  let* val2 := st_parse_value n st pairs line2 col2 depth cur_brace false in
                  if is_priority op then
                    match pop_back vals with
                    | None => panic
                    | Some (vals', (val1, line1, col1)) =>
                        let* res := st_binary_op_on_values st val1 val2 op line2 col2 in
                        st_parse_ops n st pairs depth cur_brace (vals' ++ [(res, line1, col1)]) ops
                    end
                  else
                    st_parse_ops n st pairs depth cur_brace (vals ++ [(val2, line2, col2)]) (ops ++ [op])
              end
          end
      end
  end
(** parser.rs:650-682 [parse_unary_op] *)
with st_parse_unary_op (fuel : nat) (st : N) (pairs : list pair_t) (depth : N) (cur_brace : option char)
  (op : unop) {struct fuel} : M value :=
  match fuel with
  | O => nofuel
  | S n => frame st (fun st =>
      let* nx := next in
      let* _ := assert_ (match op with
                         | UMinus => opt_char_eqb nx (Some c_minus)
                         | UPlus => opt_char_eqb nx (Some c_plus)
                         end) in
      let* '(line, col) := getpos in
      let* o := peek in
      match o with
      | None => fail (UnexpectedEnd line)
      | Some _ =>
          let* res := st_parse_value n st pairs line col (depth + 1) cur_brace false in
          st_unary_op_on_value st res op line col
      end)
  end
(** parser.rs:87-123 [parse_obj] *)
with st_parse_obj (fuel : nat) (st : N) (depth : N) {struct fuel} : M value :=
  match fuel with
  | O => nofuel
  | S n => frame st (fun st =>
      if MAX_DEPTH <? depth then let* '(l, k) := getpos in fail (MaxDepth l k)
      else
        let* c := next_unwrap in
        let* _ := assert_ (c =? c_lbrace) in
        let* found := find_char in
        if negb found then let* l := getline in fail (UnexpectedEnd l)
        else
          let* '(ps, par) := st_pairs_loop n st [] None depth (Some c_rbrace) in
          let* o := new_obj ps par in
          ret (VObj o))
  end
(** parser.rs:73-81 and 111-119: [while parse_field_value_pair(..)? {}] *)
with st_pairs_loop (fuel : nat) (st : N) (ps : list pair_t) (par : option obj) (depth : N)
  (cur_brace : option char) {struct fuel} : M (list pair_t * option obj) :=
  match fuel with
  | O => nofuel
  | S n =>
      let* '(more, ps', par') := st_parse_field_value_pair n st ps par depth cur_brace in
      if (more : bool) then st_pairs_loop n st ps' par' depth cur_brace else ret (ps', par')
  end
(** parser.rs:127-229 [parse_field_value_pair]; the mutable [obj_pairs] and [parent] are returned. *)
with st_parse_field_value_pair (fuel : nat) (st : N) (ps : list pair_t) (par : option obj) (depth : N)
  (cur_brace : option char) {struct fuel} : M (bool * list pair_t * option obj) :=
  match fuel with
  | O => nofuel
  | S n => frame st (fun st =>
      let* pk := peek_unwrap in
      if (pk =? c_rbrace) && (match cur_brace with Some _ => true | None => false end) then
        let* _ := next in ret (false, ps, par)
      else if is_end_delimiter pk then
        let* '(l, k) := getpos in fail (InvalidClosingBracket cur_brace pk l k)
      else
        let* '(field_line, field_col) := getpos in
        let* '(field_name, ftype) := parse_field field_line field_col in
        (* 155-183 *)
        let* _ :=
          (match ftype with
           | FGlobal =>
               let* g := get_globals in
               match assoc field_name g with
               | Some _ => fail (DuplicateGlobal field_name field_line field_col)
               | None => ret tt
               end
           | FParent =>
               match par with
               | Some _ => fail (DuplicateField (lit "^") field_line field_col)
               | None => ret tt
               end
           | FRegular =>
               if existsb (fun p => str_eqb (fst p) field_name) ps
               then fail (DuplicateField field_name field_line field_col)
               else ret tt
           end) in
        let* found := find_char in
        if negb found then let* l := getline in fail (UnexpectedEnd l)
        else
          let* '(value_line, value_col) := getpos in
          let* v := st_parse_value n st ps value_line value_col depth cur_brace true in
          (* 205-218 *)
          let* '(ps', par') :=
            (match ftype with
             | FGlobal => let* _ := insert_global field_name v in ret (ps, par)
             | FParent =>
                 let* _ := spare st (levels v) in
                 match get_obj v with
                 | OOk o => ret (ps, Some o)
                 | OErr e => let* f := getfile in raise (from_over e f value_line value_col)
                 end
             | FRegular => ret (ps ++ [(field_name, v)], par)
             end) in
          let* found := find_char in
          if negb found then
            match cur_brace with
            | Some _ => let* l := getline in fail (UnexpectedEnd l)
            | None => ret (false, ps', par')
            end
          else ret (true, ps', par'))
  end
(** parser.rs:293-372 [parse_arr] *)
with st_parse_arr (fuel : nat) (st : N) (pairs : list pair_t) (depth : N) {struct fuel} : M value :=
  match fuel with
  | O => nofuel
  | S n => frame st (fun st =>
      if MAX_DEPTH <? depth then let* '(l, k) := getpos in fail (MaxDepth l k)
      else
        let* c := next_unwrap in
        let* _ := assert_ (c =? c_lbrack) in
        let* '(vs, t) := st_arr_loop n st pairs depth [] TAny true in
        let* a := new_arr vs t in
        ret (VArr a))
  end
(** parser.rs:313-367, the loop of [parse_arr] *)
with st_arr_loop (fuel : nat) (st : N) (pairs : list pair_t) (depth : N) (vs : list value) (tcur : ty)
  (any : bool) {struct fuel} : M (list value * ty) :=
  match fuel with
  | O => nofuel
  | S n =>
      let* found := find_char in
      if negb found then let* l := getline in fail (UnexpectedEnd l)
      else
        let* pk := peek_unwrap in
        if pk =? c_rbrack then let* _ := next in ret (vs, tcur)
        else if is_end_delimiter pk then
          let* '(l, k) := getpos in fail (InvalidClosingBracket (Some c_rbrack) pk l k)
        else
          let* '(value_line, value_col) := getpos in
          let* v := st_parse_value n st pairs value_line value_col depth (Some c_rbrack) true in
          let* _ := spare st (levels v) in
          match arr_check_step tcur any (get_type v) with
          | inr (t1, t2) => fail (ExpectedType t1 t2 value_line value_col)
          | inl (t, any') => st_arr_loop n st pairs depth (vs ++ [v]) t any'
          end
  end
(** parser.rs:409-464 [parse_tup] *)
with st_parse_tup (fuel : nat) (st : N) (pairs : list pair_t) (depth : N) {struct fuel} : M value :=
  match fuel with
  | O => nofuel
  | S n => frame st (fun st =>
      if MAX_DEPTH <? depth then let* '(l, k) := getpos in fail (MaxDepth l k)
      else
        let* c := next_unwrap in
        let* _ := assert_ (c =? c_lparen) in
        let* vs := st_tup_loop n st pairs depth [] in
        let* t := st_new_tup st vs in
        ret (VTup t))
  end
(** parser.rs:427-459, the loop of [parse_tup] *)
with st_tup_loop (fuel : nat) (st : N) (pairs : list pair_t) (depth : N) (vs : list value) {struct fuel}
  : M (list value) :=
  match fuel with
  | O => nofuel
  | S n =>
      let* found := find_char in
      if negb found then let* l := getline in fail (UnexpectedEnd l)
      else
        let* pk := peek_unwrap in
        if pk =? c_rparen then let* _ := next in ret vs
        else if is_end_delimiter pk then
          let* '(l, k) := getpos in fail (InvalidClosingBracket (Some c_rparen) pk l k)
        else
          let* '(value_line, value_col) := getpos in
          let* v := st_parse_value n st pairs value_line value_col depth (Some c_rparen) true in
          st_tup_loop n st pairs depth (vs ++ [v])
  end
(** parser.rs:771-943 [parse_variable] *)
with st_parse_variable (fuel : nat) (st : N) (pairs : list pair_t) (line col : N) (depth : N)
  (cur_brace : option char) {struct fuel} : M value :=
  match fuel with
  | O => nofuel
  | S n => frame st (fun st =>
      let* ch := peek_unwrap in
      let is_global := ch =? c_at in
      let* var0 := (if is_global then let* c := next_unwrap in ret [c] else ret []) in
      let* r := (fun s => let '(x, (r, l, k)) :=
                            scan_var (s_rest s) (s_line s) (s_col s) var0 in
                          (Ok x, set_stream s r l k)) in
      (* 795-811: what follows a dot *)
      let* '(var, dot, dot_global) :=
        (match r with
         | VS_end v => ret (v, false, false)
         | VS_bad c => let* '(l, k) := getpos in fail (InvalidValueChar c l k)
         | VS_dot v =>
             let* o := peek in
             match o with
             | None => let* l := getline in fail (UnexpectedEnd l)
             | Some c =>
                 if c =? c_at then ret (v, true, true)
                 else if is_valid_field_char c true || is_numeric_char c then ret (v, true, false)
                 else let* '(l, k) := getpos in fail (InvalidValueChar c l k)
             end
         end) in
      let* value := lookup_variable pairs var is_global line col in
      (* 860-940 *)
      if (dot : bool) then
        match value with
        | VArr a =>
            let* '(line, col) := getpos in
            let* idx := st_parse_value n st pairs line col (depth + 1) cur_brace false in
            st_index_by st (arr_get a) idx line col
        | VTup t =>
            let* '(line, col) := getpos in
            let* idx := st_parse_value n st pairs line col (depth + 1) cur_brace false in
            st_index_by st (tup_get t) idx line col
        | VObj o =>
            let* '(line, col) := getpos in
            if (dot_global : bool) then fail (InvalidValueChar c_at line col)
            else st_parse_variable n st (obj_pairs o) line col (depth + 1) cur_brace
        | _ => fail (InvalidDot (get_type value) line col)
        end
      else ret value)
  end
(** parser.rs:991-1156 [parse_include] *)
with st_parse_include (fuel : nat) (st : N) (pairs : list pair_t) (depth : N) {struct fuel} : M value :=
  match fuel with
  | O => nofuel
  | S n => frame st (fun st =>
      if MAX_DEPTH <? depth then let* '(l, k) := getpos in fail (MaxDepth l k)
      else
        let* c := next_unwrap in
        let* _ := assert_ (c =? c_lt) in
        let* found := find_char in
        if negb found then let* l := getline in fail (UnexpectedEnd l)
        else
          let* '(line, col) := getpos in
          let* v := st_parse_value n st pairs line col depth (Some c_gt) true in
          let* tok := st_include_token st v line col in
          let* '(include_type, v, line, col) :=
            (match tok with
             | inr _ => ret (IObj, v, line, col)
             | inl ity =>
                 let* found := find_char in
                 if negb found then let* l := getline in fail (UnexpectedEnd l)
                 else
                   let* '(line, col) := getpos in
                   let* v := st_parse_value n st pairs line col depth (Some c_gt) true in
                   ret (ity, v, line, col)
             end) in
          let* found := find_char in
          if negb found then let* l := getline in fail (UnexpectedEnd l)
          else
            let* c := next_unwrap in
            if negb (c =? c_gt) then
              let* l := getline in
              let* k := col_minus_1 in
              fail (InvalidClosingBracket (Some c_gt) c l k)
            else
              match v with
              | VStr include_file => finish_include fs (load_inc st) include_type include_file line col
              | _ => let* _ := spare st (levels v) in fail (ExpectedType TStr (get_type v) line col)
              end)
  end.

(** parser.rs:60-84 [parse_obj_stream] *)
Definition st_parse_obj_stream (fuel : nat) (st : N) : M obj := frame st (fun st =>
  let* found := find_char in
  if negb found then new_obj [] None
  else
    let* '(ps, par) := st_pairs_loop fuel st [] None 1 None in
    new_obj ps par).

(** parser.rs:242-285, the loop of [parse_arr_file] *)
Fixpoint st_arr_file_loop (fuel : nat) (st : N) (vs : list value) (tcur : ty) (any : bool) {struct fuel}
  : M (list value * ty) :=
  match fuel with
  | O => nofuel
  | S n =>
      let* found := find_char in
      if negb found then ret (vs, tcur)
      else
        let* '(value_line, value_col) := getpos in
        let* v := st_parse_value n st [] value_line value_col 1 None true in
        let* _ := spare st (levels v) in
          match arr_check_step tcur any (get_type v) with
        | inr (t1, t2) => fail (ExpectedType t1 t2 value_line value_col)
        | inl (t, any') => st_arr_file_loop n st (vs ++ [v]) t any'
        end
  end.

(** parser.rs:382-403, the loop of [parse_tup_file] *)
Fixpoint st_tup_file_loop (fuel : nat) (st : N) (vs : list value) {struct fuel} : M (list value) :=
  match fuel with
  | O => nofuel
  | S n =>
      let* found := find_char in
      if negb found then ret vs
      else
        let* '(value_line, value_col) := getpos in
        let* v := st_parse_value n st [] value_line value_col 1 None true in
        st_tup_file_loop n st (vs ++ [v])
  end.


Lemma st_parse_value_S n st (pairs : list pair_t) (line col : N) (depth : N)
  (cur_brace : option char) (is_first : bool) :
  st_parse_value (S n) st pairs line col depth cur_brace is_first = frame st (fun st =>
      (* parser.rs:541-585 *)
      let* ch := peek_unwrap in
      let* res :=
        (if ch =? c_quote then parse_str
         else if ch =? c_lbrace then st_parse_obj n st (depth + 1)
         else if ch =? c_lbrack then st_parse_arr n st pairs (depth + 1)
         else if ch =? c_lparen then st_parse_tup n st pairs (depth + 1)
         else if ch =? c_lt then st_parse_include n st pairs (depth + 1)
         else if ch =? c_plus then st_parse_unary_op n st pairs depth cur_brace UPlus
         else if ch =? c_minus then st_parse_unary_op n st pairs depth cur_brace UMinus
         else if is_numeric_char ch then parse_numeric line col
         else if is_valid_field_char ch true || (ch =? c_at) then
           st_parse_variable n st pairs line col depth cur_brace
         else fail (InvalidValueChar ch line col)) in
      (* parser.rs:588-647 *)
      if is_first then
        let* '(vals, ops) := st_parse_ops n st pairs depth cur_brace [(res, line, col)] [] in
        let* _ := check_value_end cur_brace in
        match vals with
        | [] => panic                                 (* val_deque.pop_front().unwrap() *)
        | (val1, _, _) :: vals' => st_eval_low_ops st val1 vals' ops
        end
      else ret res).
Proof. reflexivity. Qed.

Lemma st_parse_ops_S n st (pairs : list pair_t) (depth : N) (cur_brace : option char)
  (vals : list (value * N * N)) (ops : list binop) :
  st_parse_ops (S n) st pairs depth cur_brace vals ops =
      let* o := peek in
      match o with
      | None => ret (vals, ops)
      | Some c =>
          match get_op c with
          | None => ret (vals, ops)
          | Some op =>
              let* _ := next in
              let* o2 := peek in
              match o2 with
              | None => let* l := getline in fail (UnexpectedEnd l)
              | Some _ =>
                  let* '(line2, col2) := getpos in
                  let* val2 := st_parse_value n st pairs line2 col2 depth cur_brace false in
                  if is_priority op then
                    match pop_back vals with
                    | None => panic
                    | Some (vals', (val1, line1, col1)) =>
                        let* res := st_binary_op_on_values st val1 val2 op line2 col2 in
                        st_parse_ops n st pairs depth cur_brace (vals' ++ [(res, line1, col1)]) ops
                    end
                  else
                    st_parse_ops n st pairs depth cur_brace (vals ++ [(val2, line2, col2)]) (ops ++ [op])
              end
          end
      end.
Proof. reflexivity. Qed.

Lemma st_parse_unary_op_S n st (pairs : list pair_t) (depth : N) (cur_brace : option char)
  (op : unop) :
  st_parse_unary_op (S n) st pairs depth cur_brace op = frame st (fun st =>
      let* nx := next in
      let* _ := assert_ (match op with
                         | UMinus => opt_char_eqb nx (Some c_minus)
                         | UPlus => opt_char_eqb nx (Some c_plus)
                         end) in
      let* '(line, col) := getpos in
      let* o := peek in
      match o with
      | None => fail (UnexpectedEnd line)
      | Some _ =>
          let* res := st_parse_value n st pairs line col (depth + 1) cur_brace false in
          st_unary_op_on_value st res op line col
      end).
Proof. reflexivity. Qed.

Lemma st_parse_obj_S n st (depth : N) :
  st_parse_obj (S n) st depth = frame st (fun st =>
      if MAX_DEPTH <? depth then let* '(l, k) := getpos in fail (MaxDepth l k)
      else
        let* c := next_unwrap in
        let* _ := assert_ (c =? c_lbrace) in
        let* found := find_char in
        if negb found then let* l := getline in fail (UnexpectedEnd l)
        else
          let* '(ps, par) := st_pairs_loop n st [] None depth (Some c_rbrace) in
          let* o := new_obj ps par in
          ret (VObj o)).
Proof. reflexivity. Qed.

Lemma st_pairs_loop_S n st (ps : list pair_t) (par : option obj) (depth : N)
  (cur_brace : option char) :
  st_pairs_loop (S n) st ps par depth cur_brace =
      let* '(more, ps', par') := st_parse_field_value_pair n st ps par depth cur_brace in
      if (more : bool) then st_pairs_loop n st ps' par' depth cur_brace else ret (ps', par').
Proof. reflexivity. Qed.

Lemma st_parse_field_value_pair_S n st (ps : list pair_t) (par : option obj) (depth : N)
  (cur_brace : option char) :
  st_parse_field_value_pair (S n) st ps par depth cur_brace = frame st (fun st =>
      let* pk := peek_unwrap in
      if (pk =? c_rbrace) && (match cur_brace with Some _ => true | None => false end) then
        let* _ := next in ret (false, ps, par)
      else if is_end_delimiter pk then
        let* '(l, k) := getpos in fail (InvalidClosingBracket cur_brace pk l k)
      else
        let* '(field_line, field_col) := getpos in
        let* '(field_name, ftype) := parse_field field_line field_col in
        (* 155-183 *)
        let* _ :=
          (match ftype with
           | FGlobal =>
               let* g := get_globals in
               match assoc field_name g with
               | Some _ => fail (DuplicateGlobal field_name field_line field_col)
               | None => ret tt
               end
           | FParent =>
               match par with
               | Some _ => fail (DuplicateField (lit "^") field_line field_col)
               | None => ret tt
               end
           | FRegular =>
               if existsb (fun p => str_eqb (fst p) field_name) ps
               then fail (DuplicateField field_name field_line field_col)
               else ret tt
           end) in
        let* found := find_char in
        if negb found then let* l := getline in fail (UnexpectedEnd l)
        else
          let* '(value_line, value_col) := getpos in
          let* v := st_parse_value n st ps value_line value_col depth cur_brace true in
          (* 205-218 *)
          let* '(ps', par') :=
            (match ftype with
             | FGlobal => let* _ := insert_global field_name v in ret (ps, par)
             | FParent =>
                 let* _ := spare st (levels v) in
                 match get_obj v with
                 | OOk o => ret (ps, Some o)
                 | OErr e => let* f := getfile in raise (from_over e f value_line value_col)
                 end
             | FRegular => ret (ps ++ [(field_name, v)], par)
             end) in
          let* found := find_char in
          if negb found then
            match cur_brace with
            | Some _ => let* l := getline in fail (UnexpectedEnd l)
            | None => ret (false, ps', par')
            end
          else ret (true, ps', par')).
Proof. reflexivity. Qed.

Lemma st_parse_arr_S n st (pairs : list pair_t) (depth : N) :
  st_parse_arr (S n) st pairs depth = frame st (fun st =>
      if MAX_DEPTH <? depth then let* '(l, k) := getpos in fail (MaxDepth l k)
      else
        let* c := next_unwrap in
        let* _ := assert_ (c =? c_lbrack) in
        let* '(vs, t) := st_arr_loop n st pairs depth [] TAny true in
        let* a := new_arr vs t in
        ret (VArr a)).
Proof. reflexivity. Qed.

Lemma st_arr_loop_S n st (pairs : list pair_t) (depth : N) (vs : list value) (tcur : ty)
  (any : bool) :
  st_arr_loop (S n) st pairs depth vs tcur any =
      let* found := find_char in
      if negb found then let* l := getline in fail (UnexpectedEnd l)
      else
        let* pk := peek_unwrap in
        if pk =? c_rbrack then let* _ := next in ret (vs, tcur)
        else if is_end_delimiter pk then
          let* '(l, k) := getpos in fail (InvalidClosingBracket (Some c_rbrack) pk l k)
        else
          let* '(value_line, value_col) := getpos in
          let* v := st_parse_value n st pairs value_line value_col depth (Some c_rbrack) true in
          let* _ := spare st (levels v) in
          match arr_check_step tcur any (get_type v) with
          | inr (t1, t2) => fail (ExpectedType t1 t2 value_line value_col)
          | inl (t, any') => st_arr_loop n st pairs depth (vs ++ [v]) t any'
          end.
Proof. reflexivity. Qed.

Lemma st_parse_tup_S n st (pairs : list pair_t) (depth : N) :
  st_parse_tup (S n) st pairs depth = frame st (fun st =>
      if MAX_DEPTH <? depth then let* '(l, k) := getpos in fail (MaxDepth l k)
      else
        let* c := next_unwrap in
        let* _ := assert_ (c =? c_lparen) in
        let* vs := st_tup_loop n st pairs depth [] in
        let* t := st_new_tup st vs in
        ret (VTup t)).
Proof. reflexivity. Qed.

Lemma st_tup_loop_S n st (pairs : list pair_t) (depth : N) (vs : list value) :
  st_tup_loop (S n) st pairs depth vs =
      let* found := find_char in
      if negb found then let* l := getline in fail (UnexpectedEnd l)
      else
        let* pk := peek_unwrap in
        if pk =? c_rparen then let* _ := next in ret vs
        else if is_end_delimiter pk then
          let* '(l, k) := getpos in fail (InvalidClosingBracket (Some c_rparen) pk l k)
        else
          let* '(value_line, value_col) := getpos in
          let* v := st_parse_value n st pairs value_line value_col depth (Some c_rparen) true in
          st_tup_loop n st pairs depth (vs ++ [v]).
Proof. reflexivity. Qed.

Lemma st_parse_variable_S n st (pairs : list pair_t) (line col : N) (depth : N)
  (cur_brace : option char) :
  st_parse_variable (S n) st pairs line col depth cur_brace = frame st (fun st =>
      let* ch := peek_unwrap in
      let is_global := ch =? c_at in
      let* var0 := (if is_global then let* c := next_unwrap in ret [c] else ret []) in
      let* r := (fun s => let '(x, (r, l, k)) :=
                            scan_var (s_rest s) (s_line s) (s_col s) var0 in
                          (Ok x, set_stream s r l k)) in
      (* 795-811: what follows a dot *)
      let* '(var, dot, dot_global) :=
        (match r with
         | VS_end v => ret (v, false, false)
         | VS_bad c => let* '(l, k) := getpos in fail (InvalidValueChar c l k)
         | VS_dot v =>
             let* o := peek in
             match o with
             | None => let* l := getline in fail (UnexpectedEnd l)
             | Some c =>
                 if c =? c_at then ret (v, true, true)
                 else if is_valid_field_char c true || is_numeric_char c then ret (v, true, false)
                 else let* '(l, k) := getpos in fail (InvalidValueChar c l k)
             end
         end) in
      let* value := lookup_variable pairs var is_global line col in
      (* 860-940 *)
      if (dot : bool) then
        match value with
        | VArr a =>
            let* '(line, col) := getpos in
            let* idx := st_parse_value n st pairs line col (depth + 1) cur_brace false in
            st_index_by st (arr_get a) idx line col
        | VTup t =>
            let* '(line, col) := getpos in
            let* idx := st_parse_value n st pairs line col (depth + 1) cur_brace false in
            st_index_by st (tup_get t) idx line col
        | VObj o =>
            let* '(line, col) := getpos in
            if (dot_global : bool) then fail (InvalidValueChar c_at line col)
            else st_parse_variable n st (obj_pairs o) line col (depth + 1) cur_brace
        | _ => fail (InvalidDot (get_type value) line col)
        end
      else ret value).
Proof. reflexivity. Qed.

Lemma st_parse_include_S n st (pairs : list pair_t) (depth : N) :
  st_parse_include (S n) st pairs depth = frame st (fun st =>
      if MAX_DEPTH <? depth then let* '(l, k) := getpos in fail (MaxDepth l k)
      else
        let* c := next_unwrap in
        let* _ := assert_ (c =? c_lt) in
        let* found := find_char in
        if negb found then let* l := getline in fail (UnexpectedEnd l)
        else
          let* '(line, col) := getpos in
          let* v := st_parse_value n st pairs line col depth (Some c_gt) true in
          let* tok := st_include_token st v line col in
          let* '(include_type, v, line, col) :=
            (match tok with
             | inr _ => ret (IObj, v, line, col)
             | inl ity =>
                 let* found := find_char in
                 if negb found then let* l := getline in fail (UnexpectedEnd l)
                 else
                   let* '(line, col) := getpos in
                   let* v := st_parse_value n st pairs line col depth (Some c_gt) true in
                   ret (ity, v, line, col)
             end) in
          let* found := find_char in
          if negb found then let* l := getline in fail (UnexpectedEnd l)
          else
            let* c := next_unwrap in
            if negb (c =? c_gt) then
              let* l := getline in
              let* k := col_minus_1 in
              fail (InvalidClosingBracket (Some c_gt) c l k)
            else
              match v with
              | VStr include_file => finish_include fs (load_inc st) include_type include_file line col
              | _ => let* _ := spare st (levels v) in fail (ExpectedType TStr (get_type v) line col)
              end).
Proof. reflexivity. Qed.

Lemma st_arr_file_loop_S n st (vs : list value) (tcur : ty) (any : bool) :
  st_arr_file_loop (S n) st vs tcur any =
      let* found := find_char in
      if negb found then ret (vs, tcur)
      else
        let* '(value_line, value_col) := getpos in
        let* v := st_parse_value n st [] value_line value_col 1 None true in
        let* _ := spare st (levels v) in
          match arr_check_step tcur any (get_type v) with
        | inr (t1, t2) => fail (ExpectedType t1 t2 value_line value_col)
        | inl (t, any') => st_arr_file_loop n st (vs ++ [v]) t any'
        end.
Proof. reflexivity. Qed.

Lemma st_tup_file_loop_S n st (vs : list value) :
  st_tup_file_loop (S n) st vs =
      let* found := find_char in
      if negb found then ret vs
      else
        let* '(value_line, value_col) := getpos in
        let* v := st_parse_value n st [] value_line value_col 1 None true in
        st_tup_file_loop n st (vs ++ [v]).
Proof. reflexivity. Qed.

(** parser.rs:232-290 and 375-406, after the file has been opened *)
Definition st_parse_arr_stream (fuel : nat) (st : N) : M arr :=
  let* '(vs, t) := st_arr_file_loop fuel st [] TAny true in new_arr vs t.
Definition st_parse_tup_stream (fuel : nat) (st : N) : M tup :=
  let* vs := st_tup_file_loop fuel st [] in st_new_tup st vs.
End Stack.

Section StackLoad.
Context `{U : Unicode}.
Variable fs : fsys.
(** As [load_file]; parse_obj_file_includes, parse_arr_file, parse_tup_file and parse_str_file need a frame. *)
Fixpoint st_load_file (k : nat) (st : N) (ty : inc_ty) (path : str) (sh : shared) {struct k}
  : outcome value * shared :=
  match k with
  | O => (NoFuel, sh)
  | S k' =>
      if st =? 0 then (Panic, sh)
      else
        match open_file fs path sh with
        | (inr e, sh) => (Err e, sh)
        | (inl contents, sh) =>
            let fuel := stream_fuel contents in
            done_file fs path
            match ty with
            | IStr => (Ok (VStr contents), sh)
            | IObj =>
                let '(o, sh) :=
                  run_stream (st_parse_obj_stream fs (st_load_file k') fuel (st - 1)) (Some path) contents sh in
                (omap VObj o, sh)
            | IArr =>
                let '(o, sh) :=
                  run_stream (st_parse_arr_stream fs (st_load_file k') fuel (st - 1)) (Some path) contents sh in
                (omap VArr o, sh)
            | ITup =>
                let '(o, sh) :=
                  run_stream (st_parse_tup_stream fs (st_load_file k') fuel (st - 1)) (Some path) contents sh in
                (omap VTup o, sh)
            end
        end
  end.
(** [Obj::from_str] and [Obj::from_file] on a stack of [st] frames; [None]: the process died. *)
Definition from_str_within (st : N) (g : gstate) (contents : str) : option (ores obj) :=
  to_ores (fst (run_stream (st_parse_obj_stream fs (st_load_file (inc_fuel fs)) (stream_fuel contents) st)
                           None contents (init_sh g))).
Definition from_file_within (st : N) (g : gstate) (path : str) : option (ores obj) :=
  to_ores (fst (match open_file fs path (init_sh g) with
                | (inr e, sh) => (Err e, sh)
                | (inl contents, sh) =>
                    run_stream (st_parse_obj_stream fs (st_load_file (inc_fuel fs)) (stream_fuel contents) st)
                               (Some path) contents sh
                end)).
End StackLoad.

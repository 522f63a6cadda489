(** * AnyInc: GENERATED by tools/gen_eq.py from Parser.v; do not edit.

    The functions of Parser.v (parser.rs:60-1156), word for word, except that the second half of [parse_include], [fin], is a
    parameter. *)
From Verif Require Export Parser.
From Coq Require String.
Import String.StringSyntax.
Open Scope N_scope.

Section Any.
Context `{U : Unicode}.
Variable fin : inc_ty -> str -> N -> N -> M value.

(** parser.rs:529-1156.  [fuel] bounds the recursion depth (calls and loop iterations). *)
Fixpoint am_parse_value (fuel : nat) (pairs : list pair_t) (line col : N) (depth : N)
  (cur_brace : option char) (is_first : bool) {struct fuel} : M value :=
  match fuel with
  | O => nofuel
  | S n =>
      (* parser.rs:541-585 *)
      let* ch := peek_unwrap in
      let* res :=
        (if ch =? c_quote then parse_str
         else if ch =? c_lbrace then am_parse_obj n (depth + 1)
         else if ch =? c_lbrack then am_parse_arr n pairs (depth + 1)
         else if ch =? c_lparen then am_parse_tup n pairs (depth + 1)
         else if ch =? c_lt then am_parse_include n pairs (depth + 1)
         else if ch =? c_plus then am_parse_unary_op n pairs depth cur_brace UPlus
         else if ch =? c_minus then am_parse_unary_op n pairs depth cur_brace UMinus
         else if is_numeric_char ch then parse_numeric line col
         else if is_valid_field_char ch true || (ch =? c_at) then
           am_parse_variable n pairs line col depth cur_brace
         else fail (InvalidValueChar ch line col)) in
      (* parser.rs:588-647 *)
      if is_first then
        let* '(vals, ops) := am_parse_ops n pairs depth cur_brace [(res, line, col)] [] in
        let* _ := check_value_end cur_brace in
        match vals with
        | [] => panic                                 (* val_deque.pop_front().unwrap() *)
        | (val1, _, _) :: vals' => eval_low_ops val1 vals' ops
        end
      else ret res
  end
(** parser.rs:593-627: the operator loop over the two deques. *)
with am_parse_ops (fuel : nat) (pairs : list pair_t) (depth : N) (cur_brace : option char)
  (vals : list (value * N * N)) (ops : list binop) {struct fuel}
  : M (list (value * N * N) * list binop) :=
  match fuel with
  | O => nofuel
  | S n =>
      let* o := peek in
      match o with
      | None => ret (vals, ops)
      | Some c =>
          match get_op c with
          | None => ret (vals, ops)
          | Some op =>
              let* _ := next in
              let* o2 := peek in
              match o2 with
              | None => let* l := getline in fail (UnexpectedEnd l)
              | Some _ =>
                  let* '(line2, col2) := getpos in
                  let* val2 := am_parse_value n pairs line2 col2 depth cur_brace false in
                  if is_priority op then
                    match pop_back vals with
                    | None => panic
                    | Some (vals', (val1, line1, col1)) =>
                        let* res := binary_op_on_values val1 val2 op line2 col2 in
                        am_parse_ops n pairs depth cur_brace (vals' ++ [(res, line1, col1)]) ops
                    end
                  else
                    am_parse_ops n pairs depth cur_brace (vals ++ [(val2, line2, col2)]) (ops ++ [op])
              end
          end
      end
  end
(** parser.rs:650-682 [parse_unary_op] *)
with am_parse_unary_op (fuel : nat) (pairs : list pair_t) (depth : N) (cur_brace : option char)
  (op : unop) {struct fuel} : M value :=
  match fuel with
  | O => nofuel
  | S n =>
      let* nx := next in
      let* _ := assert_ (match op with
                         | UMinus => opt_char_eqb nx (Some c_minus)
                         | UPlus => opt_char_eqb nx (Some c_plus)
                         end) in
      let* '(line, col) := getpos in
      let* o := peek in
      match o with
      | None => fail (UnexpectedEnd line)
      | Some _ =>
          let* res := am_parse_value n pairs line col (depth + 1) cur_brace false in
          unary_op_on_value res op line col
      end
  end
(** parser.rs:87-123 [parse_obj] *)
with am_parse_obj (fuel : nat) (depth : N) {struct fuel} : M value :=
  match fuel with
  | O => nofuel
  | S n =>
      if MAX_DEPTH <? depth then let* '(l, k) := getpos in fail (MaxDepth l k)
      else
        let* c := next_unwrap in
        let* _ := assert_ (c =? c_lbrace) in
        let* found := find_char in
        if negb found then let* l := getline in fail (UnexpectedEnd l)
        else
          let* '(ps, par) := am_pairs_loop n [] None depth (Some c_rbrace) in
          let* o := new_obj ps par in
          ret (VObj o)
  end
(** parser.rs:73-81 and 111-119: [while am_parse_field_value_pair(..)? {}] *)
with am_pairs_loop (fuel : nat) (ps : list pair_t) (par : option obj) (depth : N)
  (cur_brace : option char) {struct fuel} : M (list pair_t * option obj) :=
  match fuel with
  | O => nofuel
  | S n =>
      let* '(more, ps', par') := am_parse_field_value_pair n ps par depth cur_brace in
      if (more : bool) then am_pairs_loop n ps' par' depth cur_brace else ret (ps', par')
  end
(** parser.rs:127-229 [parse_field_value_pair]; the mutable [obj_pairs] and [parent] are returned. *)
with am_parse_field_value_pair (fuel : nat) (ps : list pair_t) (par : option obj) (depth : N)
  (cur_brace : option char) {struct fuel} : M (bool * list pair_t * option obj) :=
  match fuel with
  | O => nofuel
  | S n =>
      let* pk := peek_unwrap in
      if (pk =? c_rbrace) && (match cur_brace with Some _ => true | None => false end) then
        let* _ := next in ret (false, ps, par)
      else if is_end_delimiter pk then
        let* '(l, k) := getpos in fail (InvalidClosingBracket cur_brace pk l k)
      else
        let* '(field_line, field_col) := getpos in
        let* '(field_name, ftype) := parse_field field_line field_col in
        (* 155-183 *)
        let* _ :=
          (match ftype with
           | FGlobal =>
               let* g := get_globals in
               match assoc field_name g with
               | Some _ => fail (DuplicateGlobal field_name field_line field_col)
               | None => ret tt
               end
           | FParent =>
               match par with
               | Some _ => fail (DuplicateField (lit "^") field_line field_col)
               | None => ret tt
               end
           | FRegular =>
               if existsb (fun p => str_eqb (fst p) field_name) ps
               then fail (DuplicateField field_name field_line field_col)
               else ret tt
           end) in
        let* found := find_char in
        if negb found then let* l := getline in fail (UnexpectedEnd l)
        else
          let* '(value_line, value_col) := getpos in
          let* v := am_parse_value n ps value_line value_col depth cur_brace true in
          (* 205-218 *)
          let* '(ps', par') :=
            (match ftype with
             | FGlobal => let* _ := insert_global field_name v in ret (ps, par)
             | FParent =>
                 match get_obj v with
                 | OOk o => ret (ps, Some o)
                 | OErr e => let* f := getfile in raise (from_over e f value_line value_col)
                 end
             | FRegular => ret (ps ++ [(field_name, v)], par)
             end) in
          let* found := find_char in
          if negb found then
            match cur_brace with
            | Some _ => let* l := getline in fail (UnexpectedEnd l)
            | None => ret (false, ps', par')
            end
          else ret (true, ps', par')
  end
(** parser.rs:293-372 [parse_arr] *)
with am_parse_arr (fuel : nat) (pairs : list pair_t) (depth : N) {struct fuel} : M value :=
  match fuel with
  | O => nofuel
  | S n =>
      if MAX_DEPTH <? depth then let* '(l, k) := getpos in fail (MaxDepth l k)
      else
        let* c := next_unwrap in
        let* _ := assert_ (c =? c_lbrack) in
        let* '(vs, t) := am_arr_loop n pairs depth [] TAny true in
        let* a := new_arr vs t in
        ret (VArr a)
  end
(** parser.rs:313-367, the loop of [parse_arr] *)
with am_arr_loop (fuel : nat) (pairs : list pair_t) (depth : N) (vs : list value) (tcur : ty)
  (any : bool) {struct fuel} : M (list value * ty) :=
  match fuel with
  | O => nofuel
  | S n =>
      let* found := find_char in
      if negb found then let* l := getline in fail (UnexpectedEnd l)
      else
        let* pk := peek_unwrap in
        if pk =? c_rbrack then let* _ := next in ret (vs, tcur)
        else if is_end_delimiter pk then
          let* '(l, k) := getpos in fail (InvalidClosingBracket (Some c_rbrack) pk l k)
        else
          let* '(value_line, value_col) := getpos in
          let* v := am_parse_value n pairs value_line value_col depth (Some c_rbrack) true in
          match arr_check_step tcur any (get_type v) with
          | inr (t1, t2) => fail (ExpectedType t1 t2 value_line value_col)
          | inl (t, any') => am_arr_loop n pairs depth (vs ++ [v]) t any'
          end
  end
(** parser.rs:409-464 [parse_tup] *)
with am_parse_tup (fuel : nat) (pairs : list pair_t) (depth : N) {struct fuel} : M value :=
  match fuel with
  | O => nofuel
  | S n =>
      if MAX_DEPTH <? depth then let* '(l, k) := getpos in fail (MaxDepth l k)
      else
        let* c := next_unwrap in
        let* _ := assert_ (c =? c_lparen) in
        let* vs := am_tup_loop n pairs depth [] in
        let* t := new_tup vs in
        ret (VTup t)
  end
(** parser.rs:427-459, the loop of [parse_tup] *)
with am_tup_loop (fuel : nat) (pairs : list pair_t) (depth : N) (vs : list value) {struct fuel}
  : M (list value) :=
  match fuel with
  | O => nofuel
  | S n =>
      let* found := find_char in
      if negb found then let* l := getline in fail (UnexpectedEnd l)
      else
        let* pk := peek_unwrap in
        if pk =? c_rparen then let* _ := next in ret vs
        else if is_end_delimiter pk then
          let* '(l, k) := getpos in fail (InvalidClosingBracket (Some c_rparen) pk l k)
        else
          let* '(value_line, value_col) := getpos in
          let* v := am_parse_value n pairs value_line value_col depth (Some c_rparen) true in
          am_tup_loop n pairs depth (vs ++ [v])
  end
(** parser.rs:771-943 [parse_variable] *)
with am_parse_variable (fuel : nat) (pairs : list pair_t) (line col : N) (depth : N)
  (cur_brace : option char) {struct fuel} : M value :=
  match fuel with
  | O => nofuel
  | S n =>
      let* ch := peek_unwrap in
      let is_global := ch =? c_at in
      let* var0 := (if is_global then let* c := next_unwrap in ret [c] else ret []) in
      let* r := (fun s => let '(x, (r, l, k)) :=
                            scan_var (s_rest s) (s_line s) (s_col s) var0 in
                          (Ok x, set_stream s r l k)) in
      (* 795-811: what follows a dot *)
      let* '(var, dot, dot_global) :=
        (match r with
         | VS_end v => ret (v, false, false)
         | VS_bad c => let* '(l, k) := getpos in fail (InvalidValueChar c l k)
         | VS_dot v =>
             let* o := peek in
             match o with
             | None => let* l := getline in fail (UnexpectedEnd l)
             | Some c =>
                 if c =? c_at then ret (v, true, true)
                 else if is_valid_field_char c true || is_numeric_char c then ret (v, true, false)
                 else let* '(l, k) := getpos in fail (InvalidValueChar c l k)
             end
         end) in
      let* value := lookup_variable pairs var is_global line col in
      (* 860-940 *)
      if (dot : bool) then
        match value with
        | VArr a =>
            let* '(line, col) := getpos in
            let* idx := am_parse_value n pairs line col (depth + 1) cur_brace false in
            index_by (arr_get a) idx line col
        | VTup t =>
            let* '(line, col) := getpos in
            let* idx := am_parse_value n pairs line col (depth + 1) cur_brace false in
            index_by (tup_get t) idx line col
        | VObj o =>
            let* '(line, col) := getpos in
            if (dot_global : bool) then fail (InvalidValueChar c_at line col)
            else am_parse_variable n (obj_pairs o) line col (depth + 1) cur_brace
        | _ => fail (InvalidDot (get_type value) line col)
        end
      else ret value
  end
(** parser.rs:991-1156 [parse_include] *)
with am_parse_include (fuel : nat) (pairs : list pair_t) (depth : N) {struct fuel} : M value :=
  match fuel with
  | O => nofuel
  | S n =>
      if MAX_DEPTH <? depth then let* '(l, k) := getpos in fail (MaxDepth l k)
      else
        let* c := next_unwrap in
        let* _ := assert_ (c =? c_lt) in
        let* found := find_char in
        if negb found then let* l := getline in fail (UnexpectedEnd l)
        else
          let* '(line, col) := getpos in
          let* v := am_parse_value n pairs line col depth (Some c_gt) true in
          let* tok := include_token v line col in
          let* '(include_type, v, line, col) :=
            (match tok with
             | inr _ => ret (IObj, v, line, col)
             | inl ity =>
                 let* found := find_char in
                 if negb found then let* l := getline in fail (UnexpectedEnd l)
                 else
                   let* '(line, col) := getpos in
                   let* v := am_parse_value n pairs line col depth (Some c_gt) true in
                   ret (ity, v, line, col)
             end) in
          let* found := find_char in
          if negb found then let* l := getline in fail (UnexpectedEnd l)
          else
            let* c := next_unwrap in
            if negb (c =? c_gt) then
              let* l := getline in
              let* k := col_minus_1 in
              fail (InvalidClosingBracket (Some c_gt) c l k)
            else
              match v with
              | VStr include_file => fin include_type include_file line col
              | _ => fail (ExpectedType TStr (get_type v) line col)
              end
  end.

(** parser.rs:60-84 [parse_obj_stream] *)
Definition am_parse_obj_stream (fuel : nat) : M obj :=
  let* found := find_char in
  if negb found then new_obj [] None
  else
    let* '(ps, par) := am_pairs_loop fuel [] None 1 None in
    new_obj ps par.

(** parser.rs:242-285, the loop of [parse_arr_file] *)
Fixpoint am_arr_file_loop (fuel : nat) (vs : list value) (tcur : ty) (any : bool) {struct fuel}
  : M (list value * ty) :=
  match fuel with
  | O => nofuel
  | S n =>
      let* found := find_char in
      if negb found then ret (vs, tcur)
      else
        let* '(value_line, value_col) := getpos in
        let* v := am_parse_value n [] value_line value_col 1 None true in
        match arr_check_step tcur any (get_type v) with
        | inr (t1, t2) => fail (ExpectedType t1 t2 value_line value_col)
        | inl (t, any') => am_arr_file_loop n (vs ++ [v]) t any'
        end
  end.

(** parser.rs:382-403, the loop of [parse_tup_file] *)
Fixpoint am_tup_file_loop (fuel : nat) (vs : list value) {struct fuel} : M (list value) :=
  match fuel with
  | O => nofuel
  | S n =>
      let* found := find_char in
      if negb found then ret vs
      else
        let* '(value_line, value_col) := getpos in
        let* v := am_parse_value n [] value_line value_col 1 None true in
        am_tup_file_loop n (vs ++ [v])
  end.

(** parser.rs:232-290 and 375-406, after the file has been opened *)
Definition am_parse_arr_stream (fuel : nat) : M arr :=
  let* '(vs, t) := am_arr_file_loop fuel [] TAny true in new_arr vs t.
Definition am_parse_tup_stream (fuel : nat) : M tup :=
  let* vs := am_tup_file_loop fuel [] in new_tup vs.

End Any.

Section AnyEq.
Context `{U : Unicode}.
Variable fin : inc_ty -> str -> N -> N -> M value.

Lemma am_parse_value_S n (pairs : list pair_t) (line col : N) (depth : N)
  (cur_brace : option char) (is_first : bool) :
  am_parse_value fin (S n) pairs line col depth cur_brace is_first =
      (* parser.rs:541-585 *)
      let* ch := peek_unwrap in
      let* res :=
        (if ch =? c_quote then parse_str
         else if ch =? c_lbrace then am_parse_obj fin n (depth + 1)
         else if ch =? c_lbrack then am_parse_arr fin n pairs (depth + 1)
         else if ch =? c_lparen then am_parse_tup fin n pairs (depth + 1)
         else if ch =? c_lt then am_parse_include fin n pairs (depth + 1)
         else if ch =? c_plus then am_parse_unary_op fin n pairs depth cur_brace UPlus
         else if ch =? c_minus then am_parse_unary_op fin n pairs depth cur_brace UMinus
         else if is_numeric_char ch then parse_numeric line col
         else if is_valid_field_char ch true || (ch =? c_at) then
           am_parse_variable fin n pairs line col depth cur_brace
         else fail (InvalidValueChar ch line col)) in
      (* parser.rs:588-647 *)
      if is_first then
        let* '(vals, ops) := am_parse_ops fin n pairs depth cur_brace [(res, line, col)] [] in
        let* _ := check_value_end cur_brace in
        match vals with
        | [] => panic                                 (* val_deque.pop_front().unwrap() *)
        | (val1, _, _) :: vals' => eval_low_ops val1 vals' ops
        end
      else ret res.
Proof. reflexivity. Qed.

Lemma am_parse_ops_S n (pairs : list pair_t) (depth : N) (cur_brace : option char)
  (vals : list (value * N * N)) (ops : list binop) :
  am_parse_ops fin (S n) pairs depth cur_brace vals ops =
      let* o := peek in
      match o with
      | None => ret (vals, ops)
      | Some c =>
          match get_op c with
          | None => ret (vals, ops)
          | Some op =>
              let* _ := next in
              let* o2 := peek in
              match o2 with
              | None => let* l := getline in fail (UnexpectedEnd l)
              | Some _ =>
                  let* '(line2, col2) := getpos in
                  let* val2 := am_parse_value fin n pairs line2 col2 depth cur_brace false in
                  if is_priority op then
                    match pop_back vals with
                    | None => panic
                    | Some (vals', (val1, line1, col1)) =>
                        let* res := binary_op_on_values val1 val2 op line2 col2 in
                        am_parse_ops fin n pairs depth cur_brace (vals' ++ [(res, line1, col1)]) ops
                    end
                  else
                    am_parse_ops fin n pairs depth cur_brace (vals ++ [(val2, line2, col2)]) (ops ++ [op])
              end
          end
      end.
Proof. reflexivity. Qed.

Lemma am_parse_unary_op_S n (pairs : list pair_t) (depth : N) (cur_brace : option char)
  (op : unop) :
  am_parse_unary_op fin (S n) pairs depth cur_brace op =
      let* nx := next in
      let* _ := assert_ (match op with
                         | UMinus => opt_char_eqb nx (Some c_minus)
                         | UPlus => opt_char_eqb nx (Some c_plus)
                         end) in
      let* '(line, col) := getpos in
      let* o := peek in
      match o with
      | None => fail (UnexpectedEnd line)
      | Some _ =>
          let* res := am_parse_value fin n pairs line col (depth + 1) cur_brace false in
          unary_op_on_value res op line col
      end.
Proof. reflexivity. Qed.

Lemma am_parse_obj_S n (depth : N) :
  am_parse_obj fin (S n) depth =
      if MAX_DEPTH <? depth then let* '(l, k) := getpos in fail (MaxDepth l k)
      else
        let* c := next_unwrap in
        let* _ := assert_ (c =? c_lbrace) in
        let* found := find_char in
        if negb found then let* l := getline in fail (UnexpectedEnd l)
        else
          let* '(ps, par) := am_pairs_loop fin n [] None depth (Some c_rbrace) in
          let* o := new_obj ps par in
          ret (VObj o).
Proof. reflexivity. Qed.

Lemma am_pairs_loop_S n (ps : list pair_t) (par : option obj) (depth : N)
  (cur_brace : option char) :
  am_pairs_loop fin (S n) ps par depth cur_brace =
      let* '(more, ps', par') := am_parse_field_value_pair fin n ps par depth cur_brace in
      if (more : bool) then am_pairs_loop fin n ps' par' depth cur_brace else ret (ps', par').
Proof. reflexivity. Qed.

Lemma am_parse_field_value_pair_S n (ps : list pair_t) (par : option obj) (depth : N)
  (cur_brace : option char) :
  am_parse_field_value_pair fin (S n) ps par depth cur_brace =
      let* pk := peek_unwrap in
      if (pk =? c_rbrace) && (match cur_brace with Some _ => true | None => false end) then
        let* _ := next in ret (false, ps, par)
      else if is_end_delimiter pk then
        let* '(l, k) := getpos in fail (InvalidClosingBracket cur_brace pk l k)
      else
        let* '(field_line, field_col) := getpos in
        let* '(field_name, ftype) := parse_field field_line field_col in
        (* 155-183 *)
        let* _ :=
          (match ftype with
           | FGlobal =>
               let* g := get_globals in
               match assoc field_name g with
               | Some _ => fail (DuplicateGlobal field_name field_line field_col)
               | None => ret tt
               end
           | FParent =>
               match par with
               | Some _ => fail (DuplicateField (lit "^") field_line field_col)
               | None => ret tt
               end
           | FRegular =>
               if existsb (fun p => str_eqb (fst p) field_name) ps
               then fail (DuplicateField field_name field_line field_col)
               else ret tt
           end) in
        let* found := find_char in
        if negb found then let* l := getline in fail (UnexpectedEnd l)
        else
          let* '(value_line, value_col) := getpos in
          let* v := am_parse_value fin n ps value_line value_col depth cur_brace true in
          (* 205-218 *)
          let* '(ps', par') :=
            (match ftype with
             | FGlobal => let* _ := insert_global field_name v in ret (ps, par)
             | FParent =>
                 match get_obj v with
                 | OOk o => ret (ps, Some o)
                 | OErr e => let* f := getfile in raise (from_over e f value_line value_col)
                 end
             | FRegular => ret (ps ++ [(field_name, v)], par)
             end) in
          let* found := find_char in
          if negb found then
            match cur_brace with
            | Some _ => let* l := getline in fail (UnexpectedEnd l)
            | None => ret (false, ps', par')
            end
          else ret (true, ps', par').
Proof. reflexivity. Qed.

Lemma am_parse_arr_S n (pairs : list pair_t) (depth : N) :
  am_parse_arr fin (S n) pairs depth =
      if MAX_DEPTH <? depth then let* '(l, k) := getpos in fail (MaxDepth l k)
      else
        let* c := next_unwrap in
        let* _ := assert_ (c =? c_lbrack) in
        let* '(vs, t) := am_arr_loop fin n pairs depth [] TAny true in
        let* a := new_arr vs t in
        ret (VArr a).
Proof. reflexivity. Qed.

Lemma am_arr_loop_S n (pairs : list pair_t) (depth : N) (vs : list value) (tcur : ty)
  (any : bool) :
  am_arr_loop fin (S n) pairs depth vs tcur any =
      let* found := find_char in
      if negb found then let* l := getline in fail (UnexpectedEnd l)
      else
        let* pk := peek_unwrap in
        if pk =? c_rbrack then let* _ := next in ret (vs, tcur)
        else if is_end_delimiter pk then
          let* '(l, k) := getpos in fail (InvalidClosingBracket (Some c_rbrack) pk l k)
        else
          let* '(value_line, value_col) := getpos in
          let* v := am_parse_value fin n pairs value_line value_col depth (Some c_rbrack) true in
          match arr_check_step tcur any (get_type v) with
          | inr (t1, t2) => fail (ExpectedType t1 t2 value_line value_col)
          | inl (t, any') => am_arr_loop fin n pairs depth (vs ++ [v]) t any'
          end.
Proof. reflexivity. Qed.

Lemma am_parse_tup_S n (pairs : list pair_t) (depth : N) :
  am_parse_tup fin (S n) pairs depth =
      if MAX_DEPTH <? depth then let* '(l, k) := getpos in fail (MaxDepth l k)
      else
        let* c := next_unwrap in
        let* _ := assert_ (c =? c_lparen) in
        let* vs := am_tup_loop fin n pairs depth [] in
        let* t := new_tup vs in
        ret (VTup t).
Proof. reflexivity. Qed.

Lemma am_tup_loop_S n (pairs : list pair_t) (depth : N) (vs : list value) :
  am_tup_loop fin (S n) pairs depth vs =
      let* found := find_char in
      if negb found then let* l := getline in fail (UnexpectedEnd l)
      else
        let* pk := peek_unwrap in
        if pk =? c_rparen then let* _ := next in ret vs
        else if is_end_delimiter pk then
          let* '(l, k) := getpos in fail (InvalidClosingBracket (Some c_rparen) pk l k)
        else
          let* '(value_line, value_col) := getpos in
          let* v := am_parse_value fin n pairs value_line value_col depth (Some c_rparen) true in
          am_tup_loop fin n pairs depth (vs ++ [v]).
Proof. reflexivity. Qed.

Lemma am_parse_variable_S n (pairs : list pair_t) (line col : N) (depth : N)
  (cur_brace : option char) :
  am_parse_variable fin (S n) pairs line col depth cur_brace =
      let* ch := peek_unwrap in
      let is_global := ch =? c_at in
      let* var0 := (if is_global then let* c := next_unwrap in ret [c] else ret []) in
      let* r := (fun s => let '(x, (r, l, k)) :=
                            scan_var (s_rest s) (s_line s) (s_col s) var0 in
                          (Ok x, set_stream s r l k)) in
      (* 795-811: what follows a dot *)
      let* '(var, dot, dot_global) :=
        (match r with
         | VS_end v => ret (v, false, false)
         | VS_bad c => let* '(l, k) := getpos in fail (InvalidValueChar c l k)
         | VS_dot v =>
             let* o := peek in
             match o with
             | None => let* l := getline in fail (UnexpectedEnd l)
             | Some c =>
                 if c =? c_at then ret (v, true, true)
                 else if is_valid_field_char c true || is_numeric_char c then ret (v, true, false)
                 else let* '(l, k) := getpos in fail (InvalidValueChar c l k)
             end
         end) in
      let* value := lookup_variable pairs var is_global line col in
      (* 860-940 *)
      if (dot : bool) then
        match value with
        | VArr a =>
            let* '(line, col) := getpos in
            let* idx := am_parse_value fin n pairs line col (depth + 1) cur_brace false in
            index_by (arr_get a) idx line col
        | VTup t =>
            let* '(line, col) := getpos in
            let* idx := am_parse_value fin n pairs line col (depth + 1) cur_brace false in
            index_by (tup_get t) idx line col
        | VObj o =>
            let* '(line, col) := getpos in
            if (dot_global : bool) then fail (InvalidValueChar c_at line col)
            else am_parse_variable fin n (obj_pairs o) line col (depth + 1) cur_brace
        | _ => fail (InvalidDot (get_type value) line col)
        end
      else ret value.
Proof. reflexivity. Qed.

Lemma am_parse_include_S n (pairs : list pair_t) (depth : N) :
  am_parse_include fin (S n) pairs depth =
      if MAX_DEPTH <? depth then let* '(l, k) := getpos in fail (MaxDepth l k)
      else
        let* c := next_unwrap in
        let* _ := assert_ (c =? c_lt) in
        let* found := find_char in
        if negb found then let* l := getline in fail (UnexpectedEnd l)
        else
          let* '(line, col) := getpos in
          let* v := am_parse_value fin n pairs line col depth (Some c_gt) true in
          let* tok := include_token v line col in
          let* '(include_type, v, line, col) :=
            (match tok with
             | inr _ => ret (IObj, v, line, col)
             | inl ity =>
                 let* found := find_char in
                 if negb found then let* l := getline in fail (UnexpectedEnd l)
                 else
                   let* '(line, col) := getpos in
                   let* v := am_parse_value fin n pairs line col depth (Some c_gt) true in
                   ret (ity, v, line, col)
             end) in
          let* found := find_char in
          if negb found then let* l := getline in fail (UnexpectedEnd l)
          else
            let* c := next_unwrap in
            if negb (c =? c_gt) then
              let* l := getline in
              let* k := col_minus_1 in
              fail (InvalidClosingBracket (Some c_gt) c l k)
            else
              match v with
              | VStr include_file => fin include_type include_file line col
              | _ => fail (ExpectedType TStr (get_type v) line col)
              end.
Proof. reflexivity. Qed.

End AnyEq.

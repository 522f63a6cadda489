(** * ParserEq: GENERATED by tools/gen_eq.py from Parser.v; do not edit.

    One-step unfolding equations of the mutually recursive parser functions. *)
From Verif Require Export Parser.
From Coq Require Import String.
Open Scope N_scope.

Section Eq.
Context `{U : Unicode}.
Variable fs : fsys.
Variable load_inc : inc_ty -> str -> shared -> outcome value * shared.

Lemma parse_value_S n (pairs : list pair_t) (line col : N) (depth : N)
  (cur_brace : option char) (is_first : bool) :
  parse_value fs load_inc (S n) pairs line col depth cur_brace is_first =
      (* parser.rs:541-585 *)
      let* ch := peek_unwrap in
      let* res :=
        (if ch =? c_quote then parse_str
         else if ch =? c_lbrace then parse_obj fs load_inc n (depth + 1)
         else if ch =? c_lbrack then parse_arr fs load_inc n pairs (depth + 1)
         else if ch =? c_lparen then parse_tup fs load_inc n pairs (depth + 1)
         else if ch =? c_lt then parse_include fs load_inc n pairs (depth + 1)
         else if ch =? c_plus then parse_unary_op fs load_inc n pairs depth cur_brace UPlus
         else if ch =? c_minus then parse_unary_op fs load_inc n pairs depth cur_brace UMinus
         else if is_numeric_char ch then parse_numeric line col
         else if is_valid_field_char ch true || (ch =? c_at) then
           parse_variable fs load_inc n pairs line col depth cur_brace
         else fail (InvalidValueChar ch line col)) in
      (* parser.rs:588-647 *)
      if is_first then
        let* '(vals, ops) := parse_ops fs load_inc n pairs depth cur_brace [(res, line, col)] [] in
        let* _ := check_value_end cur_brace in
        match vals with
        | [] => panic                                 (* val_deque.pop_front().unwrap() *)
        | (val1, _, _) :: vals' => eval_low_ops val1 vals' ops
        end
      else ret res.
Proof. reflexivity. Qed.

Lemma parse_ops_S n (pairs : list pair_t) (depth : N) (cur_brace : option char)
  (vals : list (value * N * N)) (ops : list binop) :
  parse_ops fs load_inc (S n) pairs depth cur_brace vals ops =
      let* o := peek in
      match o with
      | None => ret (vals, ops)
      | Some c =>
          match get_op c with
          | None => ret (vals, ops)
          | Some op =>
              let* _ := next in
              let* o2 := peek in
              match o2 with
              | None => let* l := getline in fail (UnexpectedEnd l)
              | Some _ =>
                  let* '(line2, col2) := getpos in
                  let* val2 := parse_value fs load_inc n pairs line2 col2 depth cur_brace false in
                  if is_priority op then
                    match pop_back vals with
                    | None => panic
                    | Some (vals', (val1, line1, col1)) =>
                        let* res := binary_op_on_values val1 val2 op line2 col2 in
                        parse_ops fs load_inc n pairs depth cur_brace (vals' ++ [(res, line1, col1)]) ops
                    end
                  else
                    parse_ops fs load_inc n pairs depth cur_brace (vals ++ [(val2, line2, col2)]) (ops ++ [op])
              end
          end
      end.
Proof. reflexivity. Qed.

Lemma parse_unary_op_S n (pairs : list pair_t) (depth : N) (cur_brace : option char)
  (op : unop) :
  parse_unary_op fs load_inc (S n) pairs depth cur_brace op =
      let* nx := next in
      let* _ := assert_ (match op with
                         | UMinus => opt_char_eqb nx (Some c_minus)
                         | UPlus => opt_char_eqb nx (Some c_plus)
                         end) in
      let* '(line, col) := getpos in
      let* o := peek in
      match o with
      | None => fail (UnexpectedEnd line)
      | Some _ =>
          let* res := parse_value fs load_inc n pairs line col (depth + 1) cur_brace false in
          unary_op_on_value res op line col
      end.
Proof. reflexivity. Qed.

Lemma parse_obj_S n (depth : N) :
  parse_obj fs load_inc (S n) depth =
      if MAX_DEPTH <? depth then let* '(l, k) := getpos in fail (MaxDepth l k)
      else
        let* c := next_unwrap in
        let* _ := assert_ (c =? c_lbrace) in
        let* found := find_char in
        if negb found then let* l := getline in fail (UnexpectedEnd l)
        else
          let* '(ps, par) := pairs_loop fs load_inc n [] None depth (Some c_rbrace) in
          let* o := new_obj ps par in
          ret (VObj o).
Proof. reflexivity. Qed.

Lemma pairs_loop_S n (ps : list pair_t) (par : option obj) (depth : N)
  (cur_brace : option char) :
  pairs_loop fs load_inc (S n) ps par depth cur_brace =
      let* '(more, ps', par') := parse_field_value_pair fs load_inc n ps par depth cur_brace in
      if (more : bool) then pairs_loop fs load_inc n ps' par' depth cur_brace else ret (ps', par').
Proof. reflexivity. Qed.

Lemma parse_field_value_pair_S n (ps : list pair_t) (par : option obj) (depth : N)
  (cur_brace : option char) :
  parse_field_value_pair fs load_inc (S n) ps par depth cur_brace =
      let* pk := peek_unwrap in
      if (pk =? c_rbrace) && (match cur_brace with Some _ => true | None => false end) then
        let* _ := next in ret (false, ps, par)
      else if is_end_delimiter pk then
        let* '(l, k) := getpos in fail (InvalidClosingBracket cur_brace pk l k)
      else
        let* '(field_line, field_col) := getpos in
        let* '(field_name, ftype) := parse_field field_line field_col in
        (* 155-183 *)
        let* _ :=
          (match ftype with
           | FGlobal =>
               let* g := get_globals in
               match assoc field_name g with
               | Some _ => fail (DuplicateGlobal field_name field_line field_col)
               | None => ret tt
               end
           | FParent =>
               match par with
               | Some _ => fail (DuplicateField (lit "^") field_line field_col)
               | None => ret tt
               end
           | FRegular =>
               if existsb (fun p => str_eqb (fst p) field_name) ps
               then fail (DuplicateField field_name field_line field_col)
               else ret tt
           end) in
        let* found := find_char in
        if negb found then let* l := getline in fail (UnexpectedEnd l)
        else
          let* '(value_line, value_col) := getpos in
          let* v := parse_value fs load_inc n ps value_line value_col depth cur_brace true in
          (* 205-218 *)
          let* '(ps', par') :=
            (match ftype with
             | FGlobal => let* _ := insert_global field_name v in ret (ps, par)
             | FParent =>
                 match get_obj v with
                 | OOk o => ret (ps, Some o)
                 | OErr e => let* f := getfile in raise (from_over e f value_line value_col)
                 end
             | FRegular => ret (ps ++ [(field_name, v)], par)
             end) in
          let* found := find_char in
          if negb found then
            match cur_brace with
            | Some _ => let* l := getline in fail (UnexpectedEnd l)
            | None => ret (false, ps', par')
            end
          else ret (true, ps', par').
Proof. reflexivity. Qed.

Lemma parse_arr_S n (pairs : list pair_t) (depth : N) :
  parse_arr fs load_inc (S n) pairs depth =
      if MAX_DEPTH <? depth then let* '(l, k) := getpos in fail (MaxDepth l k)
      else
        let* c := next_unwrap in
        let* _ := assert_ (c =? c_lbrack) in
        let* '(vs, t) := arr_loop fs load_inc n pairs depth [] TAny true in
        let* a := new_arr vs t in
        ret (VArr a).
Proof. reflexivity. Qed.

Lemma arr_loop_S n (pairs : list pair_t) (depth : N) (vs : list value) (tcur : ty)
  (any : bool) :
  arr_loop fs load_inc (S n) pairs depth vs tcur any =
      let* found := find_char in
      if negb found then let* l := getline in fail (UnexpectedEnd l)
      else
        let* pk := peek_unwrap in
        if pk =? c_rbrack then let* _ := next in ret (vs, tcur)
        else if is_end_delimiter pk then
          let* '(l, k) := getpos in fail (InvalidClosingBracket (Some c_rbrack) pk l k)
        else
          let* '(value_line, value_col) := getpos in
          let* v := parse_value fs load_inc n pairs value_line value_col depth (Some c_rbrack) true in
          match arr_check_step tcur any (get_type v) with
          | inr (t1, t2) => fail (ExpectedType t1 t2 value_line value_col)
          | inl (t, any') => arr_loop fs load_inc n pairs depth (vs ++ [v]) t any'
          end.
Proof. reflexivity. Qed.

Lemma parse_tup_S n (pairs : list pair_t) (depth : N) :
  parse_tup fs load_inc (S n) pairs depth =
      if MAX_DEPTH <? depth then let* '(l, k) := getpos in fail (MaxDepth l k)
      else
        let* c := next_unwrap in
        let* _ := assert_ (c =? c_lparen) in
        let* vs := tup_loop fs load_inc n pairs depth [] in
        let* t := new_tup vs in
        ret (VTup t).
Proof. reflexivity. Qed.

Lemma tup_loop_S n (pairs : list pair_t) (depth : N) (vs : list value) :
  tup_loop fs load_inc (S n) pairs depth vs =
      let* found := find_char in
      if negb found then let* l := getline in fail (UnexpectedEnd l)
      else
        let* pk := peek_unwrap in
        if pk =? c_rparen then let* _ := next in ret vs
        else if is_end_delimiter pk then
          let* '(l, k) := getpos in fail (InvalidClosingBracket (Some c_rparen) pk l k)
        else
          let* '(value_line, value_col) := getpos in
          let* v := parse_value fs load_inc n pairs value_line value_col depth (Some c_rparen) true in
          tup_loop fs load_inc n pairs depth (vs ++ [v]).
Proof. reflexivity. Qed.

Lemma parse_variable_S n (pairs : list pair_t) (line col : N) (depth : N)
  (cur_brace : option char) :
  parse_variable fs load_inc (S n) pairs line col depth cur_brace =
      let* ch := peek_unwrap in
      let is_global := ch =? c_at in
      let* var0 := (if is_global then let* c := next_unwrap in ret [c] else ret []) in
      let* r := (fun s => let '(x, (r, l, k)) :=
                            scan_var (s_rest s) (s_line s) (s_col s) var0 in
                          (Ok x, set_stream s r l k)) in
      (* 795-811: what follows a dot *)
      let* '(var, dot, dot_global) :=
        (match r with
         | VS_end v => ret (v, false, false)
         | VS_bad c => let* '(l, k) := getpos in fail (InvalidValueChar c l k)
         | VS_dot v =>
             let* o := peek in
             match o with
             | None => let* l := getline in fail (UnexpectedEnd l)
             | Some c =>
                 if c =? c_at then ret (v, true, true)
                 else if is_valid_field_char c true || is_numeric_char c then ret (v, true, false)
                 else let* '(l, k) := getpos in fail (InvalidValueChar c l k)
             end
         end) in
      let* value := lookup_variable pairs var is_global line col in
      (* 860-940 *)
      if (dot : bool) then
        match value with
        | VArr a =>
            let* '(line, col) := getpos in
            let* idx := parse_value fs load_inc n pairs line col (depth + 1) cur_brace false in
            index_by (arr_get a) idx line col
        | VTup t =>
            let* '(line, col) := getpos in
            let* idx := parse_value fs load_inc n pairs line col (depth + 1) cur_brace false in
            index_by (tup_get t) idx line col
        | VObj o =>
            let* '(line, col) := getpos in
            if (dot_global : bool) then fail (InvalidValueChar c_at line col)
            else parse_variable fs load_inc n (obj_pairs o) line col (depth + 1) cur_brace
        | _ => fail (InvalidDot (get_type value) line col)
        end
      else ret value.
Proof. reflexivity. Qed.

Lemma parse_include_S n (pairs : list pair_t) (depth : N) :
  parse_include fs load_inc (S n) pairs depth =
      if MAX_DEPTH <? depth then let* '(l, k) := getpos in fail (MaxDepth l k)
      else
        let* c := next_unwrap in
        let* _ := assert_ (c =? c_lt) in
        let* found := find_char in
        if negb found then let* l := getline in fail (UnexpectedEnd l)
        else
          let* '(line, col) := getpos in
          let* v := parse_value fs load_inc n pairs line col depth (Some c_gt) true in
          let* tok := include_token v line col in
          let* '(include_type, v, line, col) :=
            (match tok with
             | inr _ => ret (IObj, v, line, col)
             | inl ity =>
                 let* found := find_char in
                 if negb found then let* l := getline in fail (UnexpectedEnd l)
                 else
                   let* '(line, col) := getpos in
                   let* v := parse_value fs load_inc n pairs line col depth (Some c_gt) true in
                   ret (ity, v, line, col)
             end) in
          let* found := find_char in
          if negb found then let* l := getline in fail (UnexpectedEnd l)
          else
            let* c := next_unwrap in
            if negb (c =? c_gt) then
              let* l := getline in
              let* k := col_minus_1 in
              fail (InvalidClosingBracket (Some c_gt) c l k)
            else
              match v with
              | VStr include_file => finish_include fs load_inc include_type include_file line col
              | _ => fail (ExpectedType TStr (get_type v) line col)
              end.
Proof. reflexivity. Qed.

End Eq.

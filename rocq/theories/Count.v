(** * Count: GENERATED by tools/gen_eq.py from Parser.v; do not edit.

    The parser once more, with a meter: every call of parse_value, parse_unary_op, parse_obj,
    parse_field_value_pair, parse_arr, parse_tup, parse_variable, parse_include, parse_obj_stream, parse_*_file
    and every turn of the loops inside these functions (fields of an Obj, elements of an Arr or Tup, binary
    operators, the final left-to-right evaluation) adds one [tick]; every file that is opened is noted by its
    number in the file system; every character taken from a stream adds one; and the meter keeps the largest
    number of levels of a type on which get_type was called ([c_spare], at the same places as [spare] in Stack.v).
    The bodies are those of Parser.v, character by character, except for the names, [tick] and [c_spare].  Not counted: arithmetic, look-ups in maps, copying
    of values, looking at the next character without taking it. *)
From Verif Require Export Parser Levels.
From Coq Require Import String.
Open Scope N_scope.

(** ticks and characters; the numbers of the files that were opened; the tallest type *)
Record meter := mkm { m_ticks : N; m_reads : list nat; m_tall : N }.
Definition m_add (a b : meter) : meter :=
  mkm (m_ticks a + m_ticks b) (m_reads a ++ m_reads b) (N.max (m_tall a) (m_tall b)).
Definition Mt (A : Type) := pstate -> (outcome A * pstate) * meter.
(** a leaf function costs the characters that it takes from the stream *)
Definition lift {A : Type} (m : M A) : Mt A := fun s =>
  let r := m s in (r, mkm (N.of_nat (List.length (s_rest s)) - N.of_nat (List.length (s_rest (snd r)))) [] 0).
Definition tick {A : Type} (m : Mt A) : Mt A := fun s => let '(r, u) := m s in (r, m_add (mkm 1 [] 0) u).
(** get_type copies a type of [n] levels *)
Definition c_spare (n : N) : Mt unit := fun s => (Ok tt, s, mkm 0 [] n).
Definition cbind {A B : Type} (m : Mt A) (f : A -> Mt B) : Mt B := fun s =>
  match m s with
  | (Ok a, s', u) => let '(r, u') := f a s' in (r, m_add u u')
  | (Err e, s', u) => (Err e, s', u)
  | (Panic, s', u) => (Panic, s', u)
  | (NoFuel, s', u) => (NoFuel, s', u)
  end.
Notation "'let+' x ':=' m 'in' k" := (cbind m (fun x => k))
  (at level 200, x name, m at level 100, k at level 200, right associativity).
Notation "'let+' ' p ':=' m 'in' k" := (cbind m (fun x => match x with p => k end))
  (at level 200, p strict pattern, m at level 100, k at level 200, right associativity).

Section Count.
Context `{U : Unicode}.

Definition c_peek_unwrap := lift peek_unwrap.
Definition c_next_unwrap := lift next_unwrap.
Definition c_peek := lift peek.
Definition c_next := lift next.
Definition c_find_char := lift find_char.
Definition c_getpos := lift getpos.
Definition c_getline := lift getline.
Definition c_getfile := lift getfile.
Definition c_col_minus_1 := lift col_minus_1.
Definition c_get_globals := lift get_globals.
Definition c_get_sh := lift get_sh.
Definition c_panic {A : Type} : Mt A := lift panic.
Definition c_nofuel {A : Type} : Mt A := lift nofuel.
Definition c_parse_str := lift parse_str.
Definition c_ret {A : Type} (a : A) : Mt A := lift (ret a).
Definition c_fail {A : Type} k : Mt A := lift (fail k).
Definition c_raise {A : Type} k : Mt A := lift (raise k).
Definition c_assert_ a := lift (assert_ a).
Definition c_insert_global a b := lift (insert_global a b).
Definition c_put_sh a := lift (put_sh a).
Definition c_check_value_end a := lift (check_value_end a).
Definition c_new_obj a b := lift (new_obj a b).
Definition c_new_arr a b := lift (new_arr a b).
Definition c_new_tup a := let+ _ := c_spare (levels_all a) in lift (new_tup a).
Definition c_parse_numeric a b := lift (parse_numeric a b).
Definition c_parse_field a b := lift (parse_field a b).
Definition c_lookup_variable a b c d e := lift (lookup_variable a b c d e).
Definition c_index_by a b c d := let+ _ := c_spare (levels b) in lift (index_by a b c d).
Definition c_include_token a b c := let+ _ := c_spare (levels a) in lift (include_token a b c).
Definition c_unary_op_on_value a b c d := let+ _ := c_spare (levels a) in lift (unary_op_on_value a b c d).
Definition c_binary_op_on_values a b c d e := let+ _ := c_spare (levels a) in let+ _ := c_spare (levels b) in lift (binary_op_on_values a b c d e).

(** parser.rs:633-643, the final left-to-right evaluation: [vals] and [ops] are popped at the
    front. *)
Fixpoint ct_eval_low_ops (val1 : value) (vals : list (value * N * N)) (ops : list binop) : Mt value :=
  match ops with
  | [] => c_ret val1
  | op :: ops' => tick
      match vals with
      | [] => c_panic                                  (* pop_front().unwrap() *)
      | (val2, line2, col2) :: vals' =>
          let+ v := c_binary_op_on_values val1 val2 op line2 col2 in
          ct_eval_low_ops v vals' ops'
      end
  end.


Variable fs : fsys.
(** The metered parse of an included file. *)
Variable load_inc : inc_ty -> str -> shared -> (outcome value * shared) * meter.
Definition ct_run_include (ty : inc_ty) (path : str) : Mt value := fun s =>
  let '(o, sh, u) := load_inc ty path (s_sh s) in (o, set_sh s sh, u).

(** parser.rs:1083-1155: the second half of [parse_include], from the closing '>' on. *)
Definition ct_finish_include (include_type : inc_ty) (include_file : str) (line col : N) : Mt value :=
  let+ file := c_getfile in
  let+ _ := c_assert_ (has_parent file) in               (* parent().unwrap() *)
  let path := match file with Some f => beside f include_file | None => include_file end in
  if negb (is_file fs path) then c_fail (InvalidIncludePath include_file line col)
  else
    match canon fs path with
    | None => c_fail (InvalidIncludePath include_file line col)
    | Some full_path =>
        let+ sh := c_get_sh in
        let+ _ := c_put_sh (log_ev (ETry full_path) sh) in
        (* 1122-1129: remember the current file while it is including *)
        let+ storing :=
          (match file with
           | Some f =>
               match canon fs f with
               | None => c_panic             (* canonicalize().unwrap().to_str().unwrap() *)
               | Some full_file =>
                   let+ sh := c_get_sh in
                   let+ _ := c_put_sh (mksh (sh_vals sh)
                                          (if mem_str full_file (sh_open sh) then sh_open sh
                                           else full_file :: sh_open sh)
                                          (sh_log sh) (sh_g sh)) in
                   c_ret (Some full_file)
               end
           | None => c_ret None
           end) in
        let+ sh := c_get_sh in
        if mem_str full_path (sh_open sh) then c_fail (CyclicInclude include_file line col)
        else
          let+ value :=
            (match assoc full_path (sh_vals sh) with
             | Some v => c_ret v
             | None =>
                 let+ v := ct_run_include include_type path in
                 let+ sh := c_get_sh in
                 let+ _ := c_put_sh (mksh ((full_path, v) :: sh_vals sh) (sh_open sh)
                                        (sh_log sh) (sh_g sh)) in
                 c_ret v
             end) in
          let+ sh := c_get_sh in
          let+ _ :=
            (match storing with
             | Some f =>
                 c_put_sh (mksh (sh_vals sh)
                              (filter (fun x => negb (str_eqb x f)) (sh_open sh))
                              (sh_log sh) (sh_g sh))
             | None => c_ret tt
             end) in
          let+ sh := c_get_sh in
          let+ _ := c_put_sh (log_ev (EInc full_path include_type value) sh) in
          c_ret value
    end.


Fixpoint ct_parse_value (fuel : nat) (pairs : list pair_t) (line col : N) (depth : N)
  (cur_brace : option char) (is_first : bool) {struct fuel} : Mt value :=
  match fuel with
  | O => c_nofuel
  | S n => tick (
      (* parser.rs:541-585 *)
      let+ ch := c_peek_unwrap in
      let+ res :=
        (if ch =? c_quote then c_parse_str
         else if ch =? c_lbrace then ct_parse_obj n (depth + 1)
         else if ch =? c_lbrack then ct_parse_arr n pairs (depth + 1)
         else if ch =? c_lparen then ct_parse_tup n pairs (depth + 1)
         else if ch =? c_lt then ct_parse_include n pairs (depth + 1)
         else if ch =? c_plus then ct_parse_unary_op n pairs depth cur_brace UPlus
         else if ch =? c_minus then ct_parse_unary_op n pairs depth cur_brace UMinus
         else if is_numeric_char ch then c_parse_numeric line col
         else if is_valid_field_char ch true || (ch =? c_at) then
           ct_parse_variable n pairs line col depth cur_brace
         else c_fail (InvalidValueChar ch line col)) in
      (* parser.rs:588-647 *)
      if is_first then
        let+ '(vals, ops) := ct_parse_ops n pairs depth cur_brace [(res, line, col)] [] in
        let+ _ := c_check_value_end cur_brace in
        match vals with
        | [] => c_panic                                 (* val_deque.pop_front().unwrap() *)
        | (val1, _, _) :: vals' => ct_eval_low_ops val1 vals' ops
        end
      else c_ret res)
  end
(** parser.rs:593-627: the operator loop over the two deques. *)
with ct_parse_ops (fuel : nat) (pairs : list pair_t) (depth : N) (cur_brace : option char)
  (vals : list (value * N * N)) (ops : list binop) {struct fuel}
  : Mt (list (value * N * N) * list binop) :=
  match fuel with
  | O => c_nofuel
  | S n => tick (
      let+ o := c_peek in
      match o with
      | None => c_ret (vals, ops)
      | Some c =>
          match get_op c with
          | None => c_ret (vals, ops)
          | Some op =>
              let+ _ := c_next in
              let+ o2 := c_peek in
              match o2 with
              | None => let+ l := c_getline in c_fail (UnexpectedEnd l)
              | Some _ =>
                  let+ '(line2, col2) := c_getpos in
                  let+ val2 := ct_parse_value n pairs line2 col2 depth cur_brace false in
                  if is_priority op then
                    match pop_back vals with
                    | None => c_panic
                    | Some (vals', (val1, line1, col1)) =>
                        let+ res := c_binary_op_on_values val1 val2 op line2 col2 in
                        ct_parse_ops n pairs depth cur_brace (vals' ++ [(res, line1, col1)]) ops
                    end
                  else
                    ct_parse_ops n pairs depth cur_brace (vals ++ [(val2, line2, col2)]) (ops ++ [op])
              end
          end
      end)
  end
(** parser.rs:650-682 [parse_unary_op] *)
with ct_parse_unary_op (fuel : nat) (pairs : list pair_t) (depth : N) (cur_brace : option char)
  (op : unop) {struct fuel} : Mt value :=
  match fuel with
  | O => c_nofuel
  | S n => tick (
      let+ nx := c_next in
      let+ _ := c_assert_ (match op with
                         | UMinus => opt_char_eqb nx (Some c_minus)
                         | UPlus => opt_char_eqb nx (Some c_plus)
                         end) in
      let+ '(line, col) := c_getpos in
      let+ o := c_peek in
      match o with
      | None => c_fail (UnexpectedEnd line)
      | Some _ =>
          let+ res := ct_parse_value n pairs line col (depth + 1) cur_brace false in
          c_unary_op_on_value res op line col
      end)
  end
(** parser.rs:87-123 [parse_obj] *)
with ct_parse_obj (fuel : nat) (depth : N) {struct fuel} : Mt value :=
  match fuel with
  | O => c_nofuel
  | S n => tick (
      if MAX_DEPTH <? depth then let+ '(l, k) := c_getpos in c_fail (MaxDepth l k)
      else
        let+ c := c_next_unwrap in
        let+ _ := c_assert_ (c =? c_lbrace) in
        let+ found := c_find_char in
        if negb found then let+ l := c_getline in c_fail (UnexpectedEnd l)
        else
          let+ '(ps, par) := ct_pairs_loop n [] None depth (Some c_rbrace) in
          let+ o := c_new_obj ps par in
          c_ret (VObj o))
  end
(** parser.rs:73-81 and 111-119: [while parse_field_value_pair(..)? {}] *)
with ct_pairs_loop (fuel : nat) (ps : list pair_t) (par : option obj) (depth : N)
  (cur_brace : option char) {struct fuel} : Mt (list pair_t * option obj) :=
  match fuel with
  | O => c_nofuel
  | S n => tick (
      let+ '(more, ps', par') := ct_parse_field_value_pair n ps par depth cur_brace in
      if (more : bool) then ct_pairs_loop n ps' par' depth cur_brace else c_ret (ps', par'))
  end
(** parser.rs:127-229 [parse_field_value_pair]; the mutable [obj_pairs] and [parent] are returned. *)
with ct_parse_field_value_pair (fuel : nat) (ps : list pair_t) (par : option obj) (depth : N)
  (cur_brace : option char) {struct fuel} : Mt (bool * list pair_t * option obj) :=
  match fuel with
  | O => c_nofuel
  | S n => tick (
      let+ pk := c_peek_unwrap in
      if (pk =? c_rbrace) && (match cur_brace with Some _ => true | None => false end) then
        let+ _ := c_next in c_ret (false, ps, par)
      else if is_end_delimiter pk then
        let+ '(l, k) := c_getpos in c_fail (InvalidClosingBracket cur_brace pk l k)
      else
        let+ '(field_line, field_col) := c_getpos in
        let+ '(field_name, ftype) := c_parse_field field_line field_col in
        (* 155-183 *)
        let+ _ :=
          (match ftype with
           | FGlobal =>
               let+ g := c_get_globals in
               match assoc field_name g with
               | Some _ => c_fail (DuplicateGlobal field_name field_line field_col)
               | None => c_ret tt
               end
           | FParent =>
               match par with
               | Some _ => c_fail (DuplicateField (lit "^") field_line field_col)
               | None => c_ret tt
               end
           | FRegular =>
               if existsb (fun p => str_eqb (fst p) field_name) ps
               then c_fail (DuplicateField field_name field_line field_col)
               else c_ret tt
           end) in
        let+ found := c_find_char in
        if negb found then let+ l := c_getline in c_fail (UnexpectedEnd l)
        else
          let+ '(value_line, value_col) := c_getpos in
          let+ v := ct_parse_value n ps value_line value_col depth cur_brace true in
          (* 205-218 *)
          let+ '(ps', par') :=
            (match ftype with
             | FGlobal => let+ _ := c_insert_global field_name v in c_ret (ps, par)
             | FParent =>
                 let+ _ := c_spare (levels v) in
                 match get_obj v with
                 | OOk o => c_ret (ps, Some o)
                 | OErr e => let+ f := c_getfile in c_raise (from_over e f value_line value_col)
                 end
             | FRegular => c_ret (ps ++ [(field_name, v)], par)
             end) in
          let+ found := c_find_char in
          if negb found then
            match cur_brace with
            | Some _ => let+ l := c_getline in c_fail (UnexpectedEnd l)
            | None => c_ret (false, ps', par')
            end
          else c_ret (true, ps', par'))
  end
(** parser.rs:293-372 [parse_arr] *)
with ct_parse_arr (fuel : nat) (pairs : list pair_t) (depth : N) {struct fuel} : Mt value :=
  match fuel with
  | O => c_nofuel
  | S n => tick (
      if MAX_DEPTH <? depth then let+ '(l, k) := c_getpos in c_fail (MaxDepth l k)
      else
        let+ c := c_next_unwrap in
        let+ _ := c_assert_ (c =? c_lbrack) in
        let+ '(vs, t) := ct_arr_loop n pairs depth [] TAny true in
        let+ a := c_new_arr vs t in
        c_ret (VArr a))
  end
(** parser.rs:313-367, the loop of [parse_arr] *)
with ct_arr_loop (fuel : nat) (pairs : list pair_t) (depth : N) (vs : list value) (tcur : ty)
  (any : bool) {struct fuel} : Mt (list value * ty) :=
  match fuel with
  | O => c_nofuel
  | S n => tick (
      let+ found := c_find_char in
      if negb found then let+ l := c_getline in c_fail (UnexpectedEnd l)
      else
        let+ pk := c_peek_unwrap in
        if pk =? c_rbrack then let+ _ := c_next in c_ret (vs, tcur)
        else if is_end_delimiter pk then
          let+ '(l, k) := c_getpos in c_fail (InvalidClosingBracket (Some c_rbrack) pk l k)
        else
          let+ '(value_line, value_col) := c_getpos in
          let+ v := ct_parse_value n pairs value_line value_col depth (Some c_rbrack) true in
          let+ _ := c_spare (levels v) in
          match arr_check_step tcur any (get_type v) with
          | inr (t1, t2) => c_fail (ExpectedType t1 t2 value_line value_col)
          | inl (t, any') => ct_arr_loop n pairs depth (vs ++ [v]) t any'
          end)
  end
(** parser.rs:409-464 [parse_tup] *)
with ct_parse_tup (fuel : nat) (pairs : list pair_t) (depth : N) {struct fuel} : Mt value :=
  match fuel with
  | O => c_nofuel
  | S n => tick (
      if MAX_DEPTH <? depth then let+ '(l, k) := c_getpos in c_fail (MaxDepth l k)
      else
        let+ c := c_next_unwrap in
        let+ _ := c_assert_ (c =? c_lparen) in
        let+ vs := ct_tup_loop n pairs depth [] in
        let+ t := c_new_tup vs in
        c_ret (VTup t))
  end
(** parser.rs:427-459, the loop of [parse_tup] *)
with ct_tup_loop (fuel : nat) (pairs : list pair_t) (depth : N) (vs : list value) {struct fuel}
  : Mt (list value) :=
  match fuel with
  | O => c_nofuel
  | S n => tick (
      let+ found := c_find_char in
      if negb found then let+ l := c_getline in c_fail (UnexpectedEnd l)
      else
        let+ pk := c_peek_unwrap in
        if pk =? c_rparen then let+ _ := c_next in c_ret vs
        else if is_end_delimiter pk then
          let+ '(l, k) := c_getpos in c_fail (InvalidClosingBracket (Some c_rparen) pk l k)
        else
          let+ '(value_line, value_col) := c_getpos in
          let+ v := ct_parse_value n pairs value_line value_col depth (Some c_rparen) true in
          ct_tup_loop n pairs depth (vs ++ [v]))
  end
(** parser.rs:771-943 [parse_variable] *)
with ct_parse_variable (fuel : nat) (pairs : list pair_t) (line col : N) (depth : N)
  (cur_brace : option char) {struct fuel} : Mt value :=
  match fuel with
  | O => c_nofuel
  | S n => tick (
      let+ ch := c_peek_unwrap in
      let is_global := ch =? c_at in
      let+ var0 := (if is_global then let+ c := c_next_unwrap in c_ret [c] else c_ret []) in
      let+ r := lift (fun s => let '(x, (r, l, k)) :=
                            scan_var (s_rest s) (s_line s) (s_col s) var0 in
                          (Ok x, set_stream s r l k)) in
      (* 795-811: what follows a dot *)
      let+ '(var, dot, dot_global) :=
        (match r with
         | VS_end v => c_ret (v, false, false)
         | VS_bad c => let+ '(l, k) := c_getpos in c_fail (InvalidValueChar c l k)
         | VS_dot v =>
             let+ o := c_peek in
             match o with
             | None => let+ l := c_getline in c_fail (UnexpectedEnd l)
             | Some c =>
                 if c =? c_at then c_ret (v, true, true)
                 else if is_valid_field_char c true || is_numeric_char c then c_ret (v, true, false)
                 else let+ '(l, k) := c_getpos in c_fail (InvalidValueChar c l k)
             end
         end) in
      let+ value := c_lookup_variable pairs var is_global line col in
      (* 860-940 *)
      if (dot : bool) then
        match value with
        | VArr a =>
            let+ '(line, col) := c_getpos in
            let+ idx := ct_parse_value n pairs line col (depth + 1) cur_brace false in
            c_index_by (arr_get a) idx line col
        | VTup t =>
            let+ '(line, col) := c_getpos in
            let+ idx := ct_parse_value n pairs line col (depth + 1) cur_brace false in
            c_index_by (tup_get t) idx line col
        | VObj o =>
            let+ '(line, col) := c_getpos in
            if (dot_global : bool) then c_fail (InvalidValueChar c_at line col)
            else ct_parse_variable n (obj_pairs o) line col (depth + 1) cur_brace
        | _ => c_fail (InvalidDot (get_type value) line col)
        end
      else c_ret value)
  end
(** parser.rs:991-1156 [parse_include] *)
with ct_parse_include (fuel : nat) (pairs : list pair_t) (depth : N) {struct fuel} : Mt value :=
  match fuel with
  | O => c_nofuel
  | S n => tick (
      if MAX_DEPTH <? depth then let+ '(l, k) := c_getpos in c_fail (MaxDepth l k)
      else
        let+ c := c_next_unwrap in
        let+ _ := c_assert_ (c =? c_lt) in
        let+ found := c_find_char in
        if negb found then let+ l := c_getline in c_fail (UnexpectedEnd l)
        else
          let+ '(line, col) := c_getpos in
          let+ v := ct_parse_value n pairs line col depth (Some c_gt) true in
          let+ tok := c_include_token v line col in
          let+ '(include_type, v, line, col) :=
            (match tok with
             | inr _ => c_ret (IObj, v, line, col)
             | inl ity =>
                 let+ found := c_find_char in
                 if negb found then let+ l := c_getline in c_fail (UnexpectedEnd l)
                 else
                   let+ '(line, col) := c_getpos in
                   let+ v := ct_parse_value n pairs line col depth (Some c_gt) true in
                   c_ret (ity, v, line, col)
             end) in
          let+ found := c_find_char in
          if negb found then let+ l := c_getline in c_fail (UnexpectedEnd l)
          else
            let+ c := c_next_unwrap in
            if negb (c =? c_gt) then
              let+ l := c_getline in
              let+ k := c_col_minus_1 in
              c_fail (InvalidClosingBracket (Some c_gt) c l k)
            else
              match v with
              | VStr include_file => ct_finish_include include_type include_file line col
              | _ => let+ _ := c_spare (levels v) in c_fail (ExpectedType TStr (get_type v) line col)
              end)
  end.

(** parser.rs:60-84 [parse_obj_stream] *)
Definition ct_parse_obj_stream (fuel : nat) : Mt obj := tick (
  let+ found := c_find_char in
  if negb found then c_new_obj [] None
  else
    let+ '(ps, par) := ct_pairs_loop fuel [] None 1 None in
    c_new_obj ps par).

(** parser.rs:242-285, the loop of [parse_arr_file] *)
Fixpoint ct_arr_file_loop (fuel : nat) (vs : list value) (tcur : ty) (any : bool) {struct fuel}
  : Mt (list value * ty) :=
  match fuel with
  | O => c_nofuel
  | S n => tick (
      let+ found := c_find_char in
      if negb found then c_ret (vs, tcur)
      else
        let+ '(value_line, value_col) := c_getpos in
        let+ v := ct_parse_value n [] value_line value_col 1 None true in
        let+ _ := c_spare (levels v) in
          match arr_check_step tcur any (get_type v) with
        | inr (t1, t2) => c_fail (ExpectedType t1 t2 value_line value_col)
        | inl (t, any') => ct_arr_file_loop n (vs ++ [v]) t any'
        end)
  end.

(** parser.rs:382-403, the loop of [parse_tup_file] *)
Fixpoint ct_tup_file_loop (fuel : nat) (vs : list value) {struct fuel} : Mt (list value) :=
  match fuel with
  | O => c_nofuel
  | S n => tick (
      let+ found := c_find_char in
      if negb found then c_ret vs
      else
        let+ '(value_line, value_col) := c_getpos in
        let+ v := ct_parse_value n [] value_line value_col 1 None true in
        ct_tup_file_loop n (vs ++ [v]))
  end.


Lemma ct_parse_value_S n (pairs : list pair_t) (line col : N) (depth : N)
  (cur_brace : option char) (is_first : bool) :
  ct_parse_value (S n) pairs line col depth cur_brace is_first = tick (
      (* parser.rs:541-585 *)
      let+ ch := c_peek_unwrap in
      let+ res :=
        (if ch =? c_quote then c_parse_str
         else if ch =? c_lbrace then ct_parse_obj n (depth + 1)
         else if ch =? c_lbrack then ct_parse_arr n pairs (depth + 1)
         else if ch =? c_lparen then ct_parse_tup n pairs (depth + 1)
         else if ch =? c_lt then ct_parse_include n pairs (depth + 1)
         else if ch =? c_plus then ct_parse_unary_op n pairs depth cur_brace UPlus
         else if ch =? c_minus then ct_parse_unary_op n pairs depth cur_brace UMinus
         else if is_numeric_char ch then c_parse_numeric line col
         else if is_valid_field_char ch true || (ch =? c_at) then
           ct_parse_variable n pairs line col depth cur_brace
         else c_fail (InvalidValueChar ch line col)) in
      (* parser.rs:588-647 *)
      if is_first then
        let+ '(vals, ops) := ct_parse_ops n pairs depth cur_brace [(res, line, col)] [] in
        let+ _ := c_check_value_end cur_brace in
        match vals with
        | [] => c_panic                                 (* val_deque.pop_front().unwrap() *)
        | (val1, _, _) :: vals' => ct_eval_low_ops val1 vals' ops
        end
      else c_ret res).
Proof. reflexivity. Qed.

Lemma ct_parse_ops_S n (pairs : list pair_t) (depth : N) (cur_brace : option char)
  (vals : list (value * N * N)) (ops : list binop) :
  ct_parse_ops (S n) pairs depth cur_brace vals ops = tick (
      let+ o := c_peek in
      match o with
      | None => c_ret (vals, ops)
      | Some c =>
          match get_op c with
          | None => c_ret (vals, ops)
          | Some op =>
              let+ _ := c_next in
              let+ o2 := c_peek in
              match o2 with
              | None => let+ l := c_getline in c_fail (UnexpectedEnd l)
              | Some _ =>
                  let+ '(line2, col2) := c_getpos in
                  let+ val2 := ct_parse_value n pairs line2 col2 depth cur_brace false in
                  if is_priority op then
                    match pop_back vals with
                    | None => c_panic
                    | Some (vals', (val1, line1, col1)) =>
                        let+ res := c_binary_op_on_values val1 val2 op line2 col2 in
                        ct_parse_ops n pairs depth cur_brace (vals' ++ [(res, line1, col1)]) ops
                    end
                  else
                    ct_parse_ops n pairs depth cur_brace (vals ++ [(val2, line2, col2)]) (ops ++ [op])
              end
          end
      end).
Proof. reflexivity. Qed.

Lemma ct_parse_unary_op_S n (pairs : list pair_t) (depth : N) (cur_brace : option char)
  (op : unop) :
  ct_parse_unary_op (S n) pairs depth cur_brace op = tick (
      let+ nx := c_next in
      let+ _ := c_assert_ (match op with
                         | UMinus => opt_char_eqb nx (Some c_minus)
                         | UPlus => opt_char_eqb nx (Some c_plus)
                         end) in
      let+ '(line, col) := c_getpos in
      let+ o := c_peek in
      match o with
      | None => c_fail (UnexpectedEnd line)
      | Some _ =>
          let+ res := ct_parse_value n pairs line col (depth + 1) cur_brace false in
          c_unary_op_on_value res op line col
      end).
Proof. reflexivity. Qed.

Lemma ct_parse_obj_S n (depth : N) :
  ct_parse_obj (S n) depth = tick (
      if MAX_DEPTH <? depth then let+ '(l, k) := c_getpos in c_fail (MaxDepth l k)
      else
        let+ c := c_next_unwrap in
        let+ _ := c_assert_ (c =? c_lbrace) in
        let+ found := c_find_char in
        if negb found then let+ l := c_getline in c_fail (UnexpectedEnd l)
        else
          let+ '(ps, par) := ct_pairs_loop n [] None depth (Some c_rbrace) in
          let+ o := c_new_obj ps par in
          c_ret (VObj o)).
Proof. reflexivity. Qed.

Lemma ct_pairs_loop_S n (ps : list pair_t) (par : option obj) (depth : N)
  (cur_brace : option char) :
  ct_pairs_loop (S n) ps par depth cur_brace = tick (
      let+ '(more, ps', par') := ct_parse_field_value_pair n ps par depth cur_brace in
      if (more : bool) then ct_pairs_loop n ps' par' depth cur_brace else c_ret (ps', par')).
Proof. reflexivity. Qed.

Lemma ct_parse_field_value_pair_S n (ps : list pair_t) (par : option obj) (depth : N)
  (cur_brace : option char) :
  ct_parse_field_value_pair (S n) ps par depth cur_brace = tick (
      let+ pk := c_peek_unwrap in
      if (pk =? c_rbrace) && (match cur_brace with Some _ => true | None => false end) then
        let+ _ := c_next in c_ret (false, ps, par)
      else if is_end_delimiter pk then
        let+ '(l, k) := c_getpos in c_fail (InvalidClosingBracket cur_brace pk l k)
      else
        let+ '(field_line, field_col) := c_getpos in
        let+ '(field_name, ftype) := c_parse_field field_line field_col in
        (* 155-183 *)
        let+ _ :=
          (match ftype with
           | FGlobal =>
               let+ g := c_get_globals in
               match assoc field_name g with
               | Some _ => c_fail (DuplicateGlobal field_name field_line field_col)
               | None => c_ret tt
               end
           | FParent =>
               match par with
               | Some _ => c_fail (DuplicateField (lit "^") field_line field_col)
               | None => c_ret tt
               end
           | FRegular =>
               if existsb (fun p => str_eqb (fst p) field_name) ps
               then c_fail (DuplicateField field_name field_line field_col)
               else c_ret tt
           end) in
        let+ found := c_find_char in
        if negb found then let+ l := c_getline in c_fail (UnexpectedEnd l)
        else
          let+ '(value_line, value_col) := c_getpos in
          let+ v := ct_parse_value n ps value_line value_col depth cur_brace true in
          (* 205-218 *)
          let+ '(ps', par') :=
            (match ftype with
             | FGlobal => let+ _ := c_insert_global field_name v in c_ret (ps, par)
             | FParent =>
                 let+ _ := c_spare (levels v) in
                 match get_obj v with
                 | OOk o => c_ret (ps, Some o)
                 | OErr e => let+ f := c_getfile in c_raise (from_over e f value_line value_col)
                 end
             | FRegular => c_ret (ps ++ [(field_name, v)], par)
             end) in
          let+ found := c_find_char in
          if negb found then
            match cur_brace with
            | Some _ => let+ l := c_getline in c_fail (UnexpectedEnd l)
            | None => c_ret (false, ps', par')
            end
          else c_ret (true, ps', par')).
Proof. reflexivity. Qed.

Lemma ct_parse_arr_S n (pairs : list pair_t) (depth : N) :
  ct_parse_arr (S n) pairs depth = tick (
      if MAX_DEPTH <? depth then let+ '(l, k) := c_getpos in c_fail (MaxDepth l k)
      else
        let+ c := c_next_unwrap in
        let+ _ := c_assert_ (c =? c_lbrack) in
        let+ '(vs, t) := ct_arr_loop n pairs depth [] TAny true in
        let+ a := c_new_arr vs t in
        c_ret (VArr a)).
Proof. reflexivity. Qed.

Lemma ct_arr_loop_S n (pairs : list pair_t) (depth : N) (vs : list value) (tcur : ty)
  (any : bool) :
  ct_arr_loop (S n) pairs depth vs tcur any = tick (
      let+ found := c_find_char in
      if negb found then let+ l := c_getline in c_fail (UnexpectedEnd l)
      else
        let+ pk := c_peek_unwrap in
        if pk =? c_rbrack then let+ _ := c_next in c_ret (vs, tcur)
        else if is_end_delimiter pk then
          let+ '(l, k) := c_getpos in c_fail (InvalidClosingBracket (Some c_rbrack) pk l k)
        else
          let+ '(value_line, value_col) := c_getpos in
          let+ v := ct_parse_value n pairs value_line value_col depth (Some c_rbrack) true in
          let+ _ := c_spare (levels v) in
          match arr_check_step tcur any (get_type v) with
          | inr (t1, t2) => c_fail (ExpectedType t1 t2 value_line value_col)
          | inl (t, any') => ct_arr_loop n pairs depth (vs ++ [v]) t any'
          end).
Proof. reflexivity. Qed.

Lemma ct_parse_tup_S n (pairs : list pair_t) (depth : N) :
  ct_parse_tup (S n) pairs depth = tick (
      if MAX_DEPTH <? depth then let+ '(l, k) := c_getpos in c_fail (MaxDepth l k)
      else
        let+ c := c_next_unwrap in
        let+ _ := c_assert_ (c =? c_lparen) in
        let+ vs := ct_tup_loop n pairs depth [] in
        let+ t := c_new_tup vs in
        c_ret (VTup t)).
Proof. reflexivity. Qed.

Lemma ct_tup_loop_S n (pairs : list pair_t) (depth : N) (vs : list value) :
  ct_tup_loop (S n) pairs depth vs = tick (
      let+ found := c_find_char in
      if negb found then let+ l := c_getline in c_fail (UnexpectedEnd l)
      else
        let+ pk := c_peek_unwrap in
        if pk =? c_rparen then let+ _ := c_next in c_ret vs
        else if is_end_delimiter pk then
          let+ '(l, k) := c_getpos in c_fail (InvalidClosingBracket (Some c_rparen) pk l k)
        else
          let+ '(value_line, value_col) := c_getpos in
          let+ v := ct_parse_value n pairs value_line value_col depth (Some c_rparen) true in
          ct_tup_loop n pairs depth (vs ++ [v])).
Proof. reflexivity. Qed.

Lemma ct_parse_variable_S n (pairs : list pair_t) (line col : N) (depth : N)
  (cur_brace : option char) :
  ct_parse_variable (S n) pairs line col depth cur_brace = tick (
      let+ ch := c_peek_unwrap in
      let is_global := ch =? c_at in
      let+ var0 := (if is_global then let+ c := c_next_unwrap in c_ret [c] else c_ret []) in
      let+ r := lift (fun s => let '(x, (r, l, k)) :=
                            scan_var (s_rest s) (s_line s) (s_col s) var0 in
                          (Ok x, set_stream s r l k)) in
      (* 795-811: what follows a dot *)
      let+ '(var, dot, dot_global) :=
        (match r with
         | VS_end v => c_ret (v, false, false)
         | VS_bad c => let+ '(l, k) := c_getpos in c_fail (InvalidValueChar c l k)
         | VS_dot v =>
             let+ o := c_peek in
             match o with
             | None => let+ l := c_getline in c_fail (UnexpectedEnd l)
             | Some c =>
                 if c =? c_at then c_ret (v, true, true)
                 else if is_valid_field_char c true || is_numeric_char c then c_ret (v, true, false)
                 else let+ '(l, k) := c_getpos in c_fail (InvalidValueChar c l k)
             end
         end) in
      let+ value := c_lookup_variable pairs var is_global line col in
      (* 860-940 *)
      if (dot : bool) then
        match value with
        | VArr a =>
            let+ '(line, col) := c_getpos in
            let+ idx := ct_parse_value n pairs line col (depth + 1) cur_brace false in
            c_index_by (arr_get a) idx line col
        | VTup t =>
            let+ '(line, col) := c_getpos in
            let+ idx := ct_parse_value n pairs line col (depth + 1) cur_brace false in
            c_index_by (tup_get t) idx line col
        | VObj o =>
            let+ '(line, col) := c_getpos in
            if (dot_global : bool) then c_fail (InvalidValueChar c_at line col)
            else ct_parse_variable n (obj_pairs o) line col (depth + 1) cur_brace
        | _ => c_fail (InvalidDot (get_type value) line col)
        end
      else c_ret value).
Proof. reflexivity. Qed.

Lemma ct_parse_include_S n (pairs : list pair_t) (depth : N) :
  ct_parse_include (S n) pairs depth = tick (
      if MAX_DEPTH <? depth then let+ '(l, k) := c_getpos in c_fail (MaxDepth l k)
      else
        let+ c := c_next_unwrap in
        let+ _ := c_assert_ (c =? c_lt) in
        let+ found := c_find_char in
        if negb found then let+ l := c_getline in c_fail (UnexpectedEnd l)
        else
          let+ '(line, col) := c_getpos in
          let+ v := ct_parse_value n pairs line col depth (Some c_gt) true in
          let+ tok := c_include_token v line col in
          let+ '(include_type, v, line, col) :=
            (match tok with
             | inr _ => c_ret (IObj, v, line, col)
             | inl ity =>
                 let+ found := c_find_char in
                 if negb found then let+ l := c_getline in c_fail (UnexpectedEnd l)
                 else
                   let+ '(line, col) := c_getpos in
                   let+ v := ct_parse_value n pairs line col depth (Some c_gt) true in
                   c_ret (ity, v, line, col)
             end) in
          let+ found := c_find_char in
          if negb found then let+ l := c_getline in c_fail (UnexpectedEnd l)
          else
            let+ c := c_next_unwrap in
            if negb (c =? c_gt) then
              let+ l := c_getline in
              let+ k := c_col_minus_1 in
              c_fail (InvalidClosingBracket (Some c_gt) c l k)
            else
              match v with
              | VStr include_file => ct_finish_include include_type include_file line col
              | _ => let+ _ := c_spare (levels v) in c_fail (ExpectedType TStr (get_type v) line col)
              end).
Proof. reflexivity. Qed.

Lemma ct_arr_file_loop_S n (vs : list value) (tcur : ty) (any : bool) :
  ct_arr_file_loop (S n) vs tcur any = tick (
      let+ found := c_find_char in
      if negb found then c_ret (vs, tcur)
      else
        let+ '(value_line, value_col) := c_getpos in
        let+ v := ct_parse_value n [] value_line value_col 1 None true in
        let+ _ := c_spare (levels v) in
          match arr_check_step tcur any (get_type v) with
        | inr (t1, t2) => c_fail (ExpectedType t1 t2 value_line value_col)
        | inl (t, any') => ct_arr_file_loop n (vs ++ [v]) t any'
        end).
Proof. reflexivity. Qed.

Lemma ct_tup_file_loop_S n (vs : list value) :
  ct_tup_file_loop (S n) vs = tick (
      let+ found := c_find_char in
      if negb found then c_ret vs
      else
        let+ '(value_line, value_col) := c_getpos in
        let+ v := ct_parse_value n [] value_line value_col 1 None true in
        ct_tup_file_loop n (vs ++ [v])).
Proof. reflexivity. Qed.

(** parser.rs:232-290 and 375-406, after the file has been opened *)
Definition ct_parse_arr_stream (fuel : nat) : Mt arr :=
  let+ '(vs, t) := ct_arr_file_loop fuel [] TAny true in c_new_arr vs t.
Definition ct_parse_tup_stream (fuel : nat) : Mt tup :=
  let+ vs := ct_tup_file_loop fuel [] in c_new_tup vs.
End Count.

Section CountLoad.
Context `{U : Unicode}.
Variable fs : fsys.
Definition ct_run_stream {A : Type} (p : Mt A) (file : option str) (contents : str) (sh : shared)
  : (outcome A * shared) * meter :=
  let '(o, s, u) := p (mkst file contents 1 1 [] sh) in (o, s_sh s, u).
(** one call, and the file that is opened *)
Definition opening (path : str) : meter :=
  mkm 1 (match fs_entry fs path with Some (i, _) => [i] | None => [] end) 0.
(** As [load_file]. *)
Fixpoint ct_load_file (k : nat) (ty : inc_ty) (path : str) (sh : shared) {struct k}
  : (outcome value * shared) * meter :=
  match k with
  | O => (NoFuel, sh, mkm 0 [] 0)
  | S k' =>
      match open_file fs path sh with
      | (inr e, sh) => (Err e, sh, opening path)
      | (inl contents, sh) =>
          let fuel := stream_fuel contents in
          let '(r, u) :=
            match ty with
            | IStr => (Ok (VStr contents), sh, mkm 0 [] 0)
            | IObj =>
                let '(o, sh, u) :=
                  ct_run_stream (ct_parse_obj_stream fs (ct_load_file k') fuel) (Some path) contents sh in
                (omap VObj o, sh, u)
            | IArr =>
                let '(o, sh, u) :=
                  ct_run_stream (ct_parse_arr_stream fs (ct_load_file k') fuel) (Some path) contents sh in
                (omap VArr o, sh, u)
            | ITup =>
                let '(o, sh, u) :=
                  ct_run_stream (ct_parse_tup_stream fs (ct_load_file k') fuel) (Some path) contents sh in
                (omap VTup o, sh, u)
            end in
          (done_file fs path r, m_add (opening path) u)
      end
  end.
(** [parse_obj_str] and [parse_obj_file] with the meter. *)
Definition metered_str (g : gstate) (contents : str) : (outcome obj * shared) * meter :=
  ct_run_stream (ct_parse_obj_stream fs (ct_load_file (inc_fuel fs)) (stream_fuel contents)) None contents
                (init_sh g).
Definition metered_file (g : gstate) (path : str) : (outcome obj * shared) * meter :=
  match open_file fs path (init_sh g) with
  | (inr e, sh) => (Err e, sh, opening path)
  | (inl contents, sh) =>
      let '(r, u) := ct_run_stream (ct_parse_obj_stream fs (ct_load_file (inc_fuel fs)) (stream_fuel contents))
                                   (Some path) contents sh in
      (r, m_add (opening path) u)
  end.
End CountLoad.

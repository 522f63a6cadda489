"""Wrong programs: edits of the model as a realistic bug would change the program.
Each: id, edits [(file, old, new)], defn, what, claim (the English claim that becomes false), props."""
def M(id, file, defn, old, new, what, claim, props, **kw):
    return dict(id=id, edits=[(file, old, new)], defn=defn, what=what, claim=claim, props=props, **kw)
MUTANTS = [
# ---- Base
M('b01','Base','get_escape_char','else if c =? c_r then Some c_cr\n','else if c =? c_r then Some c_nl\n','\\r denotes a newline','the seven escapes denote their characters',['C19','C01']),
M('b02','Base','get_escape_char','  else if c =? c_dollar then Some c_dollar\n','','escape \\$ not accepted','\\$ is one of the seven escapes',['C19','C01']),
M('b03','Base','is_digit','(48 <=? c) && (c <=? 57)','(48 <=? c) && (c <? 57)','9 is not a digit','an integer literal is the integer its digits spell',['C18']),
M('b04','Base','is_valid_field_char','else if c =? c_caret then first','else if c =? c_caret then true','^ accepted anywhere in a name','legal names contain only letters, digits and _',['C07','C31']),
M('b05','Base','is_reserved','str_eqb f (lit "@") || str_eqb f (lit "null")','str_eqb f (lit "@")','null may be a field name','field names are not reserved words',['C07']),
M('b06','Base','is_valid_field_char','else if is_digit c then negb first','else if is_digit c then true','names may begin with a digit','field names start with a letter or _',['C07','C31']),
M('b07','Base','ch_is_whitespace','((9 <=? c) && (c <=? 13))','((9 <=? c) && (c <? 13))','carriage return is not whitespace','white space characters are insignificant',['C26']),
M('b08','Base','dec_val','a * 10 + (c - 48)','a * 10 + (c - 47)','digits read off by one','integer literals denote their value',['C18']),
M('b09','Base','ratio_new','| Zneg p => Some (Qred (Qmake (- n) p))','| Zneg p => Some (Qred (Qmake n p))','sign of a negative divisor lost','/ is exact',['C17']),
M('b10','Base','assoc','if str_eqb k\' k then Some v else assoc k l\'','match assoc k l\' with Some w => Some w | None => if str_eqb k\' k then Some v else None end','the last binding instead of the first','a field is looked up among the pairs, first match',['C14']),
# ---- Types
M('t01','Types','has_any','| TArr t => has_any t\n  | TTup ts','| TTup ts','Any inside Arr not noticed','most_specific tells whether the result contains Any',['C10']),
M('t02','Types','has_any','existsb has_any ts','forallb has_any ts','a Tup has Any only if all components do','most_specific tells whether the result contains Any',['C10','C09']),
M('t03','Types','most_specific','if Nat.eqb (List.length l1) (List.length l2) then\n                match','if Nat.leb (List.length l1) (List.length l2) then\n                match','Tups of different length accepted','most_specific is None without a common specialisation',['C10','C09']),
M('t04','Types','most_specific','| TAny => Some (a, has_any a)\n  | _ =>\n      match a with\n      | TAny => Some (b, has_any b)','| TAny => Some (a, has_any a)\n  | _ =>\n      match a with\n      | TAny => Some (a, has_any b)','Any with b gives Any','most_specific is the least common specialisation',['C10']),
M('t05','Types','ty_eqb','| TAny => true\n      | TArr t1 =>','| TAny => false\n      | TArr t1 =>','Any on the left is not compatible','== is symmetric compatibility',['C11']),
M('t06','Types','most_specific','(if negb any && any1 then any1 else any)','any1','only the last component decides the Any flag','the flag says whether t contains Any',['C10']),
M('t07','Types','ty_is','if negb (Nat.eqb (List.length l1) (List.length l2)) then false\n          else','if false then false\n          else','is: Tup length not compared','is is identity',['C11']),
M('t08','Types','ty_eqb','TTup l2 => list_eqb ty_eqb l1 l2','TTup l2 => true','all Tup types equal','== is compatibility',['C11','C12']),
# ---- Values
M('v01','Values','get_frac','| VInt z => OOk (Qred (Qmake z 1))\n','','get_frac rejects an Int','get_frac converts an Int exactly',['C15']),
M('v02','Values','value_eqb','| Some q1, Some q2 =>\n          if negb (obj_eqb q1 q2) then false\n          else','| Some q1, Some q2 =>\n          if false then false\n          else','parents not compared','== compares parents',['C12']),
M('v03','Values','value_eqb','| _, _ => false\n      end\n  end.\n\n(** src/value.rs:199','| _, _ => list_eqb (fun x y => match x, y with (f, v), (g, w) => str_eqb f g && value_eqb v w end) p1 p2\n      end\n  end.\n\n(** src/value.rs:199','an Obj with a parent may equal one without','== compares parents',['C12']),
M('v04','Values','value_eqb','if negb (ty_eqb t1 t2) then false else list_eqb value_eqb v1 v2','list_eqb value_eqb v1 v2','Arr types not compared','equal values have the same type (unchecked Arrs)',['C12']),
M('v05','Values','value_eq_native','(lo <=? z)%Z && (z <=? hi)%Z','(lo <=? z)%Z','no upper range check (harmless: still exact)','none: equivalent mutant',[]),
M('v06','Values','value_eq_native','| Some z\' => Z.eqb z\' n','| Some z\' => Z.eqb (Z.abs z\') n','sign ignored','equal iff it is the Int n',['C32']),
M('v07','Values','arr_check_step','| Some (t, any\') => inl (t, any\')\n    | None => inr (tcur, tnew)','| Some (t, any\') => inl (t, false)\n    | None => inr (tcur, tnew)','the Any flag is dropped after one element','from_values gives the least common type',['C09','C08']),
M('v08','Values','arr_check_step','else if negb (ty_eqb tcur tnew) then inr (tcur, tnew) else inl (tcur, any)','else inl (tcur, any)','no type check once the type is specific','from_values accepts only homogeneous vectors',['C09','C08']),
M('v09','Values','arr_get','if arr_len a <=? i then','if arr_len a <? i then','index = len passes the check (then panics in Rust)','Arr::get is bounds checked',['C29'],),
M('v10','Values','tup_get','if tup_len t <=? i then OErr (OE_TupOutOfBounds i)','if tup_len t <=? i then OErr (OE_ArrOutOfBounds i)','wrong error','Tup::get gives TupOutOfBounds(i)',['C29']),
M('v11','Values','obj_get','| None => match par with Some p => obj_get p f | None => None end\n      end\n  end.\n\n(** src/obj.rs:227','| None => None\n      end\n  end.\n\n(** src/obj.rs:227','get ignores the parent','get follows the parent chain',['C14']),
M('v12','Values','obj_get_with_source','| Some v => Some (v, o)\n      | None => match par with Some p => obj_get_with_source p f','| Some v => Some (v, o)\n      | None => match par with Some p => match obj_get_with_source p f with Some (v, _) => Some (v, o) | None => None end','get_with_source returns the Obj asked, not the source','get_with_source returns the Obj that has the field',['C14']),
M('v13','Values','obj_from_pairs_check','if negb (is_valid_field f) then Some f else obj_from_pairs_check ps\'','match obj_from_pairs_check ps\' with Some g => Some g | None => if negb (is_valid_field f) then Some f else None end','the error names the last bad field','the error names the first bad field',['C31']),
M('v14','Values','obj_contains','existsb (fun p => str_eqb f (fst p)) (obj_pairs o)','existsb (fun p => str_eqb f (fst p)) (obj_pairs o) || match obj_parent o with Some p => existsb (fun p => str_eqb f (fst p)) (obj_pairs p) | None => false end','contains looks at the parent','contains considers o only',['C14'],),
M('v15','Values','try_obj_split','try_obj_split es\' (ps ++ [(f, v)]) par','try_obj_split es\' ((f, v) :: ps) par','try_obj! reverses the fields','try_obj! keeps the order',['C31']),
M('v16','Values','tup_from_values','MkTup id (map get_type vs) vs','MkTup id (map get_type vs) (rev vs)','Tup values reversed','a Tup holds the given values, with their types',['C07','C12']),
M('v17','Values','obj_get_typed','| None => OErr (OE_FieldNotFound f)','| None => OErr (OE_InvalidFieldName f)','wrong error','FieldNotFound iff the lookup fails',['C15']),
M('v18','Values','get_str','VStr s => OOk s | _ => OErr (OE_TypeMismatch TStr (get_type v))','VStr s => OOk s | _ => OErr (OE_TypeMismatch (get_type v) TStr)','expected and found swapped','TypeMismatch(expected, actual)',['C15']),
# ---- Format
M('f01','Format','get_char_map','  else if c =? c_tab then Some [c_bslash; c_t]\n','','tab written raw (still parses back)','writing is stable; parse-back still holds: equivalent for C19',[]),
M('f02','Format','get_char_map','  if c =? c_bslash then Some [c_bslash; c_bslash]\n  else if','  if','backslash not escaped','quoted text parses back to the string',['C19','C01']),
M('f03','Format','format_frac','if Pos.eqb (Qden q) 1 then ratio_show q ++ lit ".0" else ratio_show q','ratio_show q','integral Frac written as an Int','round trip',['C01']),
M('f04','Format','format_obj','Some (indent ind ++ lit "^: " ++ f ++ [c_nl])','Some []','parent not written','round trip keeps the parent',['C01']),
M('f05','Format','format_arr','Some (if full then lit "[" ++ f ++ lit "]" else f)','Some f','one-element Arr written without brackets','round trip',['C01']),
M('f06','Format','format_tup','Some (if full then lit "(" ++ f ++ lit ")" else f)','Some f','one-element Tup written without parentheses','round trip',['C01']),
M('f07','Format','format_obj','Some (indent ind ++ field ++ lit ": " ++ f ++ [c_nl])','Some (indent ind ++ field ++ lit ": " ++ f)','no newline between fields','round trip',['C01']),
M('f08','Format','format_value','| VObj o => format_obj true ind o','| VObj o => format_obj full (ind - INDENT_STEP) o','nested Obj indented from too small a column','writing never panics (usize underflow)',['C33']),
M('f09','Format','replace_all','++ replace_all s\'','++ match s\' with [] => [] | _ => replace_all s\' end','harmless rewriting','none: equivalent mutant',[]),
# ---- Parser
M('p01','Parser','adv','(l + 1, 1) else (l, k + 1)','(l + 1, 0) else (l, k + 1)','columns start at 0 after a newline','error positions are real positions',['C06']),
M('p02','Parser','find_char_l','if comment then find_char_l r\' l\' k\' (negb (c =? c_nl))','if comment then find_char_l r\' l\' k\' true','a comment never ends','comments end at the newline',['C26','C39']),
M('p03','Parser','scan_str','else if c =? c_bslash then scan_str r\' l\' k\' acc true','else if c =? c_bslash then scan_str r\' l\' k\' acc (negb (Nat.eqb (List.length acc) 0))','a leading backslash is dropped','string literals denote the text with escapes replaced',['C19']),
M('p04','Parser','scan_numeric','if negb under then scan_numeric r\' l\' k\' s1 s2 dec true','if true then scan_numeric r\' l\' k\' s1 s2 dec true','__ accepted','two underscores in a row are an error',['C18']),
M('p05','Parser','scan_numeric','if negb dec then scan_numeric r\' l\' k\' s1 s2 true false\n        else (NS_bad c, (r, l, k))','scan_numeric r\' l\' k\' s1 s2 true false','a second point accepted','a second point is an error',['C18']),
M('p06','Parser','parse_numeric','let s2 := trim_end_zeros s2 in','let s2 := drop_zeros s2 in','leading instead of trailing zeros dropped','a Frac literal denotes its exact value',['C18']),
M('p07','Parser','parse_numeric','let* d := parse_bigint s2 in ret (d, List.length s2)','let* d := parse_bigint s2 in ret (d, S (List.length s2))','one digit too many after the point','a Frac literal denotes its exact value',['C18']),
M('p08','Parser','parse_numeric','| [], [] => fail (InvalidNumeric line col)\n        | _, _ =>','| _, _ =>','"." denotes zero','no digit at all is an error',['C18']),
M('p09','Parser','parse_field','if is_reserved field then fail','if false then fail','reserved words as field names','loaded field names are not reserved',['C07']),
M('p10','Parser','parse_field','| 94 :: _ => fail (InvalidFieldName field line col)   (* starts_with(\'^\') *)\n','','^abc accepted as a field','field names start with a letter or _',['C07']),
M('p11','Parser','scan_field','(c =? c_colon) && negb first','(c =? c_colon)','empty field names','field names are non-empty',['C07']),
M('p12','Parser','unary_op_on_value','ret (VInt (- z))','ret (VInt z)','minus ignored','unary minus negates',['C16']),
M('p13','Parser','binary_op_on_values','ret (val1, type1, VFrac q, TFrac)\n','ret (VFrac q, TFrac, val1, type1)\n','operands swapped on promotion of the right one','mixed operands promote; a-b is exact',['C17']),
M('p14','Parser','binary_op_on_values','let* b := unwrap_o (get_int val2) in\n            if Z.eqb b 0 then fail (InvalidNumeric line col)\n            else let* q := unwrap (ratio_new a b) in','let* b := unwrap_o (get_int val2) in\n            let* q := unwrap (ratio_new a b) in','no zero test in Int division','loading never panics',['C03','C17']),
M('p15','Parser','binary_op_on_values','ret (VInt (Z.rem a b))','ret (VInt (Z.modulo a b))','floored remainder','% is the truncated remainder',['C17']),
M('p16','Parser','binary_op_on_values','if q_is_zero b then fail (InvalidNumeric line col)\n            else ret (VFrac (q_div a b))','ret (VFrac (q_div a b))','Frac division by zero gives 0','division by zero is an error',['C17']),
M('p17','Parser','binary_op_on_values','let* r := new_arr (arr_values a ++ arr_values b) t in','let* r := new_arr (arr_values b ++ arr_values a) t in','Arr concatenation swapped','Arr+Arr is first then second',['C28']),
M('p18','Parser','binary_op_on_values','ret (VStr (a ++ b))','ret (VStr (b ++ a))','Str concatenation swapped','Str+Str is concatenation',['C28']),
M('p19','Parser','binary_op_on_values','let* r := new_arr (arr_values a ++ arr_values b) t in','let* r := new_arr (arr_values a ++ arr_values b) (arr_inner_type a) in','the type of the first Arr is kept','the result has the least common type',['C28','C08']),
M('p20','Parser','q_sub','Qred (Qminus a b)','Qminus a b','difference not reduced','Fracs are in lowest terms',['C17','C07']),
M('p21','Parser','check_value_end','if is_end_delimiter c && negb (opt_char_eqb (Some c) cur_brace) then','if false then','wrong closing bracket accepted','the text is in the grammar / errors',['C39']),
M('p22','Parser','eval_low_ops','let* v := binary_op_on_values val1 val2 op line2 col2 in\n          eval_low_ops v vals\' ops\'','let* v := eval_low_ops val2 vals\' ops\' in\n          binary_op_on_values val1 v op line2 col2','right-to-left evaluation of + and -','operators associate to the left',['C16']),
M('p23','Parser','pop_back','match rev l with','match l with','pops the front','* binds to the operand on its left',['C16']),
M('p24','Errors','is_priority','BMult | BDiv | BMod => true','BMult | BDiv => true','% has the precedence of +','%, *, / bind tighter',['C16']),
M('p25','Errors','get_op','else if c =? c_slash then Some BDiv','else if c =? c_slash then Some BMod','/ read as %','/ is division',['C16']),
M('p26','Parser','to_usize','(z <=? 18446744073709551615)%Z then Some (Z.to_N z)','(z <=? 18446744073709551616)%Z then Some (Z.to_N z)','2^64 is an index','an index outside 0..2^64-1 is an invalid-index error',['C29']),
M('p27','Parser','to_usize','(0 <=? z)%Z && (z <=? 18446744073709551615)%Z then','(z <=? 18446744073709551615)%Z then','negative index becomes 0','an index outside 0..2^64-1 is an invalid-index error',['C29']),
M('p28','Parser','finish_include','if mem_str full_path (sh_open sh) then fail (CyclicInclude include_file line col)\n        else','if false then fail (CyclicInclude include_file line col)\n        else','no cycle check','cyclic includes are rejected; loading terminates',['C22','C04']),
M('p29','Parser','finish_include','let* _ := put_sh (mksh ((full_path, v) :: sh_vals sh) (sh_open sh)','let* _ := put_sh (mksh (sh_vals sh) (sh_open sh)','included value not cached','each file is read once and shared',['C23']),
M('p30','Parser','finish_include','let* _ := put_sh (mksh ((full_path, v) :: sh_vals sh) (sh_open sh)','let* _ := put_sh (mksh ((include_file, v) :: sh_vals sh) (sh_open sh)','cache keyed by the path as written','whatever aliases are used the file is read once',['C23']),
M('p31','Parser','finish_include','(filter (fun x => negb (str_eqb x f)) (sh_open sh))','(sh_open sh)','current file stays marked after the include','a second, non-cyclic include of a file succeeds',['C22','C39']),
M('p32','Parser','finish_include','match file with Some f => beside f include_file | None => include_file end','include_file','paths not relative to the including file','include paths are relative to the including file',['C39']),
M('p33','Parser','include_token','if obj_ptr_eq o s2 then ret (inl IStr)','if obj_ptr_eq o s2 then ret (inl IArr)','Str keyword acts as Arr','first include with Str yields the text',['C24','C37','C39']),
M('p34','Parser','lookup_variable','match assoc var pairs with\n    | Some v => ret v\n    | None => fail (VariableNotFound var line col)','match assoc var pairs with\n    | Some v => ret v\n    | None => let* g := get_globals in match assoc (64 :: var) g with Some v => ret v | None => fail (VariableNotFound var line col) end','a variable also finds a global','a variable not defined earlier in the same object is an error',['C20','C39']),
M('p35','Parser','parse_value','else if ch =? c_lbrace then parse_obj n (depth + 1)','else if ch =? c_lbrace then parse_obj n depth','depth not incremented for Objs','the nesting limit',['C25']),
M('p36','Parser','parse_arr','if MAX_DEPTH <? depth then let* \'(l, k) := getpos in fail (MaxDepth l k)\n      else\n        let* c := next_unwrap in\n        let* _ := assert_ (c =? c_lbrack) in','if MAX_DEPTH <=? depth then let* \'(l, k) := getpos in fail (MaxDepth l k)\n      else\n        let* c := next_unwrap in\n        let* _ := assert_ (c =? c_lbrack) in','limit off by one for Arrs','accepted iff n <= 63',['C25','C01']),
M('p37','Parser','parse_tup','if MAX_DEPTH <? depth then let* \'(l, k) := getpos in fail (MaxDepth l k)\n      else\n        let* c := next_unwrap in\n        let* _ := assert_ (c =? c_lparen) in','if false then let* \'(l, k) := getpos in fail (MaxDepth l k)\n      else\n        let* c := next_unwrap in\n        let* _ := assert_ (c =? c_lparen) in','no limit for Tups','the nesting limit',['C25']),
M('p38','Parser','parse_unary_op','let* res := parse_value n pairs line col (depth + 1) cur_brace false in\n          unary_op_on_value','let* res := parse_value n pairs line col (depth + 1) cur_brace true in\n          unary_op_on_value','unary operator takes the whole chain','unary operators bind tightest',['C16']),
M('p39','Parser','parse_field_value_pair','| Some _ => fail (DuplicateGlobal field_name field_line field_col)\n               | None => ret tt','| Some _ => ret tt\n               | None => ret tt','duplicate globals accepted','a second definition of a global is rejected',['C21']),
M('p40','Parser','parse_field_value_pair','if existsb (fun p => str_eqb (fst p) field_name) ps\n               then fail (DuplicateField field_name field_line field_col)\n               else ret tt','ret tt','duplicate fields accepted','field names are pairwise distinct',['C07']),
M('p41','Parser','parse_field_value_pair','| Some _ => fail (DuplicateField (lit "^") field_line field_col)\n               | None => ret tt','| Some _ => ret tt\n               | None => ret tt','a second parent replaces the first','text with two parents is an error',['C39']),
M('p42','Parser','parse_field_value_pair','| FGlobal => let* _ := insert_global field_name v in ret (ps, par)','| FGlobal => let* _ := insert_global field_name v in ret (ps ++ [(field_name, v)], par)','globals become fields','no field starts with @',['C21','C07']),
M('p43','Parser','parse_field_value_pair','| FRegular => ret (ps ++ [(field_name, v)], par)','| FRegular => ret ((field_name, v) :: ps, par)','fields in reverse order','field order is preserved',['C27']),
M('p44','Parser','parse_arr','let* \'(vs, t) := arr_loop n pairs depth [] TAny true in\n        let* a := new_arr vs t in','let* \'(vs, t) := arr_loop n pairs depth [] TAny false in\n        let* a := new_arr vs t in','type tracking starts with has_any=false','Arrs have the least common type',['C08']),
M('p45','Parser','parse_variable','else parse_variable n (obj_pairs o) line col (depth + 1) cur_brace','else parse_variable n (match obj_parent o with Some p => obj_pairs o ++ obj_pairs p | None => obj_pairs o end) line col (depth + 1) cur_brace','dot access sees the parent','dot access sees own fields only',['C30']),
M('p46','Parser','parse_variable','if (dot_global : bool) then fail (InvalidValueChar c_at line col)\n            else','if false then fail (InvalidValueChar c_at line col)\n            else','obj.@g reads a global','obj.f denotes an own field',['C30','C39']),
M('p47','Parser','parse_obj','let* \'(ps, par) := pairs_loop n [] None depth (Some c_rbrace) in\n          let* o := new_obj ps par in','let* \'(ps, par) := pairs_loop n [] None depth (Some c_rbrace) in\n          let* o := new_obj ps None in','parent of a nested Obj dropped','the parent is the value of ^',['C39','C01']),
M('p48','Parser','run_stream','let \'(o, s) := p (mkst file contents 1 1 [] sh) in (o, s_sh s)','let \'(o, s) := p (mkst file contents 1 0 [] sh) in (o, s_sh s)','first column is 0','error positions are real positions',['C06']),
M('p49','Parser','stream_fuel','4 * List.length contents + 4','List.length contents + 1','(model budget too small)','loading terminates within the budget',['C04','C03']),
M('p50','Parser','load_file','| IStr => (Ok (VStr contents), sh)','| IStr => (Ok (VStr (trim_end_zeros contents)), sh)','included text is trimmed','Str include yields the text verbatim',['C24']),
M('p51','Parser','load_file',"run_stream (parse_arr_stream fs (load_file k') fuel) (Some path) contents sh in\n              (omap VArr o, sh)","run_stream (parse_tup_stream fs (load_file k') fuel) (Some path) contents sh in\n              (omap VTup o, sh)",'Arr include gives a Tup','the kind of an include is honoured',['C24']),
M('p52','Parser','new_obj','let* i := gen_id in ret (obj_from_pairs_unchecked i ps par)','ret (obj_from_pairs_unchecked 0 ps par)','all Objs get id 0','an ordinary empty Obj is never a keyword',['C37']),
M('p53','Parser','parse_field_value_pair','match get_obj v with\n                 | OOk o => ret (ps, Some o)\n                 | OErr e => let* f := getfile in raise (from_over e f value_line value_col)','match get_obj v with\n                 | OOk o => ret (ps, Some o)\n                 | OErr e => let* f := getfile in raise (from_over e f value_col value_line)','line and column swapped in a type error','the error names the right line',['C06']),
M('p54','Parser','fail','(Err (mkperr (s_file s) k), s)','(Err (mkperr None k), s)','errors do not name the file','errors name the file',['C06','C05']),
M('p55','Parser','parse_tup_stream','let* vs := tup_file_loop fuel [] in new_tup vs','let* vs := tup_file_loop fuel [] in new_tup (rev vs)','Tup file reversed','include of a Tup file yields its values',['C39','C24']),
M('p56','Parser','parse_include','| inr _ => ret (IObj, v, line, col)','| inr _ => ret (IStr, v, line, col)','default include kind is Str','an include without keyword is an Obj include',['C24','C39']),
M('p57','Parser','sentinel','(Ok (obj_empty (g_next g)), set_sh s (set_g sh (g_new_sent g k)))','(Ok (obj_empty (g_next g)), set_sh s (set_g sh (bump g)))','sentinel not remembered','a variable holding a keyword acts as the keyword',['C37']),
M('p58','Parser','parse_ops','(ops ++ [op])','(op :: ops)','operators in reverse order','left to right',['C16']),
M('p59','Parser','parse_value','let* _ := check_value_end cur_brace in\n        match vals','match vals','no check after a value','1 2 / 1} etc. are errors (grammar)',['C39']),
M('p60','Parser','parse_include','| _ => fail (ExpectedType TStr (get_type v) line col)','| _ => panic','non-Str path panics','loading never panics',['C03']),
M('p61','Errors','pkind_show','lit "Unexpected end at line " ++ N_to_dec l','lit "Unexpected end"','no line in the message','every parse error says the line',['C05']),
M('p62','Errors','over_from_parse','OE_ParseError (perr_show e)','OE_ParseError []','message lost','every parse error says the line',['C05']),
M('p63','Errors','MAX_DEPTH','MAX_DEPTH : N := 64','MAX_DEPTH : N := 65','limit is 65','accepted iff n <= 63',['C25','C01','C02']),
# ---- Runtime
M('r01','Runtime','idm_step','(im_cur m + 1) mod usize_max_1','im_cur m','counter not incremented','ids are unique',['C13']),
M('r02','Runtime','idm_step','(im_cur m + 1) mod usize_max_1','(im_cur m + 2) mod usize_max_1','counter steps by two','ids are 0,1,2,...',['C13']),
M('r03','Runtime','rt_step','in_strong i <> 1 ->\n    rt_step s (mkrt (hset_strong (rt_heap s) a (in_strong i - 1))','in_strong i <> 1 ->\n    rt_step s (mkrt (rt_heap s)','drop does not decrement','num_references equals the number of handles',['C38']),
M('r04','Runtime','rt_step','rt_step s (mkrt (hset_strong (rt_heap s) a (in_strong i + 1)) (a :: rt_vars s)','rt_step s (mkrt (rt_heap s) (a :: rt_vars s)','clone does not increment','num_references equals the number of handles',['C38']),
M('r05','Runtime','rt_step','in_strong i = 1 ->\n    rt_step s (mkrt (hremove (rt_heap s) a) (rt_vars s) (in_kids i ++ rest) (rt_created s)).','in_strong i = 1 ->\n    rt_step s (mkrt (hremove (rt_heap s) a) (rt_vars s) rest (rt_created s)).','freeing an instance leaks its children','num_references equals the number of handles; no leak',['C38']),
M('r06','Runtime','rt_step','hfind (rt_heap s) a = Some i ->\n    in_strong i = 1 ->\n    rt_step s (mkrt (hremove','hfind (rt_heap s) a = Some i ->\n    in_strong i <= 2 ->\n    rt_step s (mkrt (hremove','freed while a handle remains','no dangling handle',['C38']),
# ---- Disk
M('d01','Disk','wstep','wstep (WStart, fs) (WOpen i [] (utf8 contents), put_bytes fs i [])','wstep (WStart, fs) (WOpen i [] (utf8 contents), fs)','no truncation','a crash leaves a prefix of the new text (old contents lost)',['C35']),
M('d02','Disk','wstep','(WOpen i (done ++ some) todo, put_bytes fs i (done ++ some))','(WOpen i (done ++ some) todo, put_bytes fs i some)','each write overwrites','write then load returns the Obj',['C35']),
M('d03','Disk','utf8_char','if c <? 2048 then [192 + c / 64; 128 + c mod 64]','if c <? 4096 then [192 + c / 64; 128 + c mod 64]','wrong UTF-8 boundary','write then load returns the Obj',['C35']),
M('d04','Disk','wstep','| w_done fs i done : wstep (WOpen i done [], fs) (WEnd (OOk tt), fs)','| w_done fs i done todo : wstep (WOpen i done todo, fs) (WEnd (OOk tt), fs)','short writes reported as success','write then load returns the Obj',['C35']),
# ---- round 2: shared state
M('h01','Parser','gen_id','(Ok (g_next g), set_sh s (set_g sh (bump g)))','(Ok (g_next g), set_sh s (set_g sh (mkg (g_next g) (g_obj g) (g_str g) (g_arr g) (g_tup g) (g_others g) (g_taken g))))','counter read but not incremented','every instance of a load is new',['C40','C37','C48']),
M('h02','Parser','gen_id','(Ok (g_next g), set_sh s (set_g sh (bump g)))','(Ok (g_next (bump g)), set_sh s (set_g sh (bump g)))','the counter is read after other threads drew (load instead of the value fetch_add returned)','no instance is ptr_eq to one of another thread',['C40','C48']),
M('h03','Parser','g_new_sent','interfere (g_set_sent (g_draw g) k (g_next g))','interfere (g_set_sent g k (g_next g))','sentinel uses an id without drawing it','an ordinary empty Obj is never a keyword',['C37','C48']),
M('h04','Parser','sentinel','| None => (Ok (obj_empty (g_next g)), set_sh s (set_g sh (g_new_sent g k)))','| None => (Ok (obj_empty (g_next g)), set_sh s (set_g sh (g_set_sent (interfere (g_draw g)) k (g_next g))))','sentinel stored after others may have created it (a race in the lazy initialisation)','one keyword Obj per process',['C37','C48']),
M('h05','Parser','new_arr','let* i := gen_id in ret (arr_from_values_unchecked i','let* i := ret 7 in ret (arr_from_values_unchecked i','all Arrs have the same id','loads share nothing',['C40','C48']),
# ---- round 2: includes
M('i01','Parser','finish_include','if mem_str full_path (sh_open sh) then fail (CyclicInclude include_file line col)','if mem_str include_file (sh_open sh) then fail (CyclicInclude include_file line col)','cycle detected by the path as written','cyclic includes are rejected',['C22']),
M('i02','Parser','finish_include','match file with Some f => beside f include_file | None => include_file end','match file with Some f => beside include_file f | None => include_file end','join arguments swapped','include paths are relative to the including file',['C39','C43']),
M('i03','Parser','run_stream','let \'(o, s) := p (mkst file contents 1 1 [] sh) in (o, s_sh s)','let \'(o, s) := p (mkst file contents 1 1 [(lit "x", VNull)] sh) in (o, s_sh s)','globals of a file start non-empty','globals are per file',['C21','C39']),
# ---- round 2: API
M('a01','Api','int_hi','U8 => 2 ^ 8 - 1','U8 => 2 ^ 8','256 is a u8','conversion is exact on the range',['C44']),
M('a02','Api','int_lo','I8 => - 2 ^ 7','I8 => - 2 ^ 7 + 1','-128 is not an i8','comparisons agree for every native',['C44']),
M('a03','Api','value_eq_to','| NBigRational q => match v with VFrac x => Qeq_bool x q','| NBigRational q => match v with VFrac x => Qeq_bool x q | VInt z => Qeq_bool (inject_Z z) q','Int equals a rational','value == native iff value == Value::from(native)',['C44']),
M('a04','Api','eq_to_value','| NTup t, VTup x => tup_eqb x t','| NTup t, VTup x => true','native Tup equals every Tup','the comparison is symmetric',['C44']),
M('a05','Api','value_from','| NBool b => VBool b','| NBool b => VBool (negb b)','Bool negated','from keeps the value',['C44']),
M('a06','Api','to_int','((int_lo k <=? z) && (z <=? int_hi k))%Z','((int_lo k <? z) && (z <=? int_hi k))%Z','lower bound excluded','comparisons agree for every native',['C44']),
M('a07','Api','iter_next_back','(Some x, rev r)','(Some x, r)','the rest is reversed after next_back','iterators yield each element once, in order from both ends',['C45']),
M('a08','Api','for_each','for_each f it\' (f s x)','f (for_each f it\' s) x','visits from the end','with_each visits in order',['C45']),
M('a09','Api','arr_is_empty','match arr_values a with [] => true | _ => false end','match arr_values a with [] => true | [_] => true | _ => false end','one element counts as empty','is_empty iff len = 0',['C45']),
M('a10','Api','obj_macro','| [] => Some (obj_empty id)','| [] => None','obj!{} panics','obj!{} is the empty Obj',['C46']),
M('a11','Api','tup_macro','tup_from_values id (map value_from es)','tup_from_values id (rev (map value_from es))','reversed','tup! holds the given values in order',['C46']),
M('a12','Api','frac_macro','ratio_new a b','ratio_new b a','numerator and denominator swapped','frac!(a,b) = a/b',['C46']),
M('a13','Values','try_obj_split',"try_obj_split es' ps (Some v)","try_obj_split es' ps (match par with Some p => Some p | None => Some v end)",'the first ^ wins','the last ^ is the parent',['C46','C31']),
M('a14','Api','arr_empty','arr_from_values_unchecked id [] TAny','arr_from_values_unchecked id [] TInt','the empty Arr has type Arr(Int)','Arr::empty is Arr(Any)',['C45']),
# ---- round 2: Stream
M('s01','Stream','cs_peek','cs (Some o) (i_line x) (i_col x)','cs None (i_line x) (i_col x)','peeked character not remembered','every next gives the next character',['C47']),
M('s02','Stream','from_string_impl','(mkchars buf 0 (List.length bs))','(mkchars buf 0 (S (List.length bs)))','end pointer one past the buffer','no read outside a buffer',['C47']),
M('s03','Stream','chars_next','if x <? 224 then do ch','if x <? 240 then do ch','three-byte characters decoded as two-byte','every next gives the next character',['C47']),
M('s04','Stream','acc_cont','ch * 64 + b mod 64','ch * 64 + b','continuation byte not masked','every next gives the next character',['C47']),
M('s05','Stream','cs_drop','| S (S n) => put_cell i (Some (mkcell (S n) (ce_borrow c) (ce_inner c)))\n             | _ =>','| S (S (S n)) => put_cell i (Some (mkcell (S (S n)) (ce_borrow c) (ce_inner c)))\n             | _ =>','freed while one handle is left','no use after free',['C47']),
M('s06','Stream','cs_clone','(mkcell (S (ce_rc c)) (ce_borrow c) (ce_inner c))','(mkcell (ce_rc c) (ce_borrow c) (ce_inner c))','clone does not count','no use after free',['C47']),
M('s07','Stream','cs_next','let! _ := release_mut i (mkinner (i_file x) (i_contents x) cs None (i_line x) (i_col x)) in\n  match o with','match o with','borrow_mut still held while line() borrows','no RefCell panic',['C47']),
M('s08','Stream','cs_next','let! _ := cs_set_line i (l + 1) in\n                   cs_set_col i 1','cs_set_line i (l + 1)','column not reset','line and column are those of the position',['C47']),
M('s09','Stream','exec','| FromFile path bs =>\n      match read_bytes bs with\n      | inl _ => wmap','| FromFile path bs =>\n      match inl (B := str) tt with\n      | inl _ => wmap','file not checked for UTF-8','no unchecked decoding past the end',['C47']),
M('s10','Stream','cs_drop','(upd (w_cells w) i None) (w_handles w))','(w_cells w) (w_handles w))','cell survives its buffer','no dangling',[]),
M('s11','Stream','cs_peek','| Some o => let! _ := release_mut i x in wret o\n','| Some o => wret o\n','borrow not released','no RefCell panic',['C47']),
M('s12','Stream','cs_next','(mkinner (i_file x) (i_contents x) cs None (i_line x) (i_col x))','(mkinner (i_file x) (i_contents x) cs (i_peeked x) (i_line x) (i_col x))','peeked character stays','every next gives the next character',['C47']),
# ---- round 2: grammar corners
M('g01','Parser','check_value_end','is_end_delimiter c && negb','is_end_delimiter c || negb','any character after a value is an error','what the grammar allows loads',['C42','C39']),
# ---- round 2: paths
M('q01','Path','path_join','if has_root p then p\n  else','','absolute include paths are joined too','an absolute path is used as it is',['C49']),
M('q02','Path','path_join','if c =? c_slash then d ++ p else d ++ [c_slash] ++ p','d ++ p','no separator added','p leads to what it leads to from the directory of f',['C49']),
M('q03','Path','path_parent','Some (head ++ path_unsplit (rev (skip_segs rest)))','Some (path_unsplit (rev (skip_segs rest)))','the root is lost','p leads to what it leads to from the directory of f',['C49']),
M('q04','Path','beside','match path_parent f with Some d => path_join d p | None => p end','path_join f p','joined to the file, not to its directory','p leads to what it leads to from the directory of f',['C49']),
M('q05','Path','path_parent','match skip_segs (rev (path_split body)) with','match rev (path_split body) with','trailing separators not skipped','however f was written',['C49']),
M('q06','Parser','finish_include','let* _ := assert_ (has_parent file) in','let* _ := assert_ (match file with Some f => has_root f | None => true end) in','panics for a relative file','loading never panics',['C03']),
# ---- round 3: places and kinds of errors, character classes, messages
M('x01','Parser','check_value_end','fail (InvalidClosingBracket cur_brace c l k)','fail (InvalidClosingBracket (Some c) c l k)','the bracket found is reported as the expected one','the message says which bracket was expected',['C51','C52']),
M('x02','Parser','check_value_end','else let* \'(l, k) := getpos in fail (InvalidValueChar c l k)\n  | None => ret tt','else let* \'(l, k) := getpos in fail (InvalidValueChar c l (k + 1))\n  | None => ret tt','column one too far','the error is at the place of the fault',['C51','C52','C06']),
M('x03','Parser','parse_variable','| VS_bad c => let* \'(l, k) := getpos in fail (InvalidValueChar c l k)','| VS_bad c => fail (InvalidValueChar c line col)','reports the start of the name, not the character','the error is at the place of the character',['C51','C52']),
M('x04','Parser','parse_ops','let* res := binary_op_on_values val1 val2 op line2 col2 in','let* res := binary_op_on_values val1 val2 op line1 col1 in','error of * / % at the first operand','the error is at the second operand',['C51','C52']),
M('x05','Parser','parse_ops','match o2 with\n              | None => let* l := getline in fail (UnexpectedEnd l)','match o2 with\n              | None => let* l := getline in fail (UnexpectedEnd (l + 1))','end reported one line too far','the error names the last line',['C51','C52','C06']),
M('x06','Parser','arr_loop','arr_check_step tcur any (get_type v) with\n          | inr (t1, t2) => fail (ExpectedType t1 t2','arr_check_step tcur any (get_type v) with\n          | inr (t1, t2) => fail (ExpectedType t2 t1','expected and found swapped','the message says which type was expected',['C51','C52']),
M('x07','Parser','include_token','| _ => fail (InvalidIncludeToken (get_type v) line col)','| _ => fail (InvalidIncludeToken TStr line col)','wrong type in the message','the message names the type of the value',['C51','C52']),
M('x08','Parser','parse_include','let* \'(line, col) := getpos in\n                   let* v := parse_value n pairs line col depth (Some c_gt) true in','let* \'(line2, col2) := getpos in\n                   let* v := parse_value n pairs line2 col2 depth (Some c_gt) true in','error of the path at the keyword','the error is at the path',['C51','C52']),
M('x09','Parser','index_by','fail (ExpectedType TInt (get_type idx) line col)','fail (ExpectedType (get_type idx) TInt line col)','expected and found swapped','the message says that an Int was expected',['C51','C52']),
M('x10','Parser','index_by','fail (InvalidIndex z line col)','fail (InvalidIndex (- z) line col)','index negated in the message','the message shows the index',['C51','C52']),
M('x11','Parser','lookup_variable','fail (GlobalNotFound var line col)','fail (VariableNotFound var line col)','wrong kind','an undefined global is reported as a global',['C51','C52']),
M('x12','Parser','parse_field','| 94 :: _ => fail (InvalidFieldName field line col)','| 94 :: _ => let* \'(l, k) := getpos in fail (InvalidFieldName field l k)','reported after the name','the error is at the name',['C51','C52']),
M('x13','Parser','parse_unary_op','unary_op_on_value res op line col\n','unary_op_on_value res op line (col - 1)\n','reported at the sign','the error is at the operand',['C51','C52']),
M('x14','Parser','finish_include','fail (CyclicInclude include_file line col)','fail (CyclicInclude full_path line col)','canonical path in the message','the message shows the path as written',['C51','C52']),
M('x15','Parser','finish_include','| None => fail (InvalidIncludePath include_file line col)\n','| None => fail (CyclicInclude include_file line col)\n','unresolvable path reported as a cycle','a path that names no file is reported as such',['C51','C52','C22']),
M('x16','Base','is_end_delimiter','(c =? c_rbrace) || (c =? c_gt)','(c =? c_rbrace)','> does not end a value','the path of an include ends at >',['C39','C51']),
M('x17','Base','is_end_delimiter','(c =? c_rbrace) || (c =? c_gt)','(c =? c_rbrace) || (c =? c_gt) || (c =? c_lt)','< ends a value','only closing brackets end a value',['C41','C51']),
M('x18','Base','is_value_end_char','is_end_delimiter c || is_op c','is_end_delimiter c','operators need a blank before them','operators need no blanks',['C16','C39']),
M('x19','Base','is_numeric_char','|| (c =? c_dot) || (c =? c_comma)','|| (c =? c_dot)','a number may not begin with a comma','the decimal comma is a decimal point',['C18','C39']),
M('x20','Base','is_numeric_char','|| (c =? c_dot) || (c =? c_comma)','|| (c =? c_dot) || (c =? c_comma) || (c =? c_under)','_1 is read as a number','a value starting with _ is a name',['C51','C39']),
M('x21','Base','ch_is_whitespace','(c =? 8287) ||','(c =? 8287) || (c =? 8203) ||','zero width space is white space','only White_Space characters are',['C26']),
M('x22','Base','is_whitespace','ch_is_whitespace c || (c =? c_hash)','ch_is_whitespace c','a comment directly after a value is an error','comments may follow a value directly',['C26','C39']),
M('x23','Base','is_op','|| (c =? c_slash) || (c =? c_percent)','|| (c =? c_slash)','% directly after a value is an error','% is an operator',['C16','C39']),
M('x24','Base','mem_str','existsb (fun x => str_eqb x k) l','match l with x :: _ => str_eqb x k | [] => false end','only the newest open file is compared','cycles through several files are rejected',['C22']),
M('x25','Errors','at_line_col','lit " at line " ++ N_to_dec l ++ lit ", column " ++ N_to_dec c','lit " at line " ++ N_to_dec c ++ lit ", column " ++ N_to_dec l','line and column swapped in all messages','the message names the line and the column',['C53','C05']),
M('x26','Errors','pkind_show','lit "Expected " ++ ty_show t1 ++ at_line_col l c ++ lit "; found " ++ ty_show t2','lit "Expected " ++ ty_show t2 ++ at_line_col l c ++ lit "; found " ++ ty_show t1','expected and found swapped in the text','the words of the message',['C53']),
M('x27','Errors','pkind_show','lit "Variable " ++ dq','lit "Global " ++ dq','two kinds share their text','different faults, different messages',['C53']),
M('x28','Errors','perr_show','match e_file e with Some f => f ++ lit ": " | None => [] end ++ pkind_show','match e_file e with Some f => [] | None => [] end ++ pkind_show','file not named','errors in files name the file',['C52','C51','C53']),
M('x29','Errors','over_error_show','lit "Arr inner types do not match: expected " ++ ty_show t1 ++ lit ", found " ++ ty_show t2','lit "Arr inner types do not match: expected " ++ ty_show t2 ++ lit ", found " ++ ty_show t1','swapped','the words of the message',['C53']),
M('x30','Types','ty_show','fold_left (fun s t => s ++ lit ", " ++ ty_show t)','fold_left (fun s t => s ++ lit "," ++ ty_show t)','no blank after the comma','the names of types',['C53']),
M('x31','Types','ty_show','| TFrac => lit "Frac"','| TFrac => lit "Int"','Frac shown as Int','different types, different names',['C53']),
M('x32','Errors','from_over','lit ", col " ++ N_to_dec c','lit ", col " ++ N_to_dec l','line shown twice','the message names the column',['C51','C52','C05']),
M('x33','Parser','find_char_l','find_char_l r\' l\' k\' (negb (c =? c_nl))','find_char_l r\' l\' k\' (negb ((c =? c_nl) || (c =? c_hash)))','a second # ends a comment','a comment ends with its line',['C26','C39']),
M('x34','Parser','arr_file_loop','let* v := parse_value n [] value_line value_col 1 None true in\n        match','let* v := parse_value n [] value_line value_col 0 None true in\n        match','one more level in Arr files','elements of a file are at level 1',['C43','C51']),
M('x35','Parser','parse_field_value_pair','| Some _ => let* l := getline in fail (UnexpectedEnd l)\n            | None => ret (false, ps\', par\')','| Some _ => ret (false, ps\', par\')\n            | None => ret (false, ps\', par\')','a missing } at the end is accepted','only the documented language is accepted',['C41','C52']),
M('x36','Parser','parse_obj','if negb found then let* l := getline in fail (UnexpectedEnd l)\n        else\n          let* \'(ps, par) := pairs_loop n [] None depth (Some c_rbrace) in\n          let* o := new_obj ps par in','if negb found then let* o := new_obj [] None in ret (VObj o)\n        else\n          let* \'(ps, par) := pairs_loop n [] None depth (Some c_rbrace) in\n          let* o := new_obj ps par in','{ at the end is an empty Obj','only the documented language is accepted',['C41','C52']),
M('x37','Parser','tup_loop','if pk =? c_rparen then','if (pk =? c_rparen) || (pk =? c_rbrack) then','] closes a Tup','brackets must match',['C41','C51']),
M('x38','Parser','parse_include','if negb (c =? c_gt) then','if false then','anything closes an include','an include ends with >',['C41','C51']),
M('x39','Parser','unary_op_on_value','| TInt | TFrac => ret v\n      | _ => fail (UnaryOperatorError t op line col)','| _ => ret v','+ accepted before anything','signs apply to numbers only',['C41','C51','C17']),
M('x40','Parser','parse_variable','if (dot_global : bool) then fail (InvalidValueChar c_at line col)\n            else','','o.@g reads a global','after a dot only a name may stand',['C41','C51','C30']),
M('x41','Parser','binary_op_on_values','fail (BinaryOperatorError type1 type2 op line col)','fail (BinaryOperatorError type2 type1 op line col)','operand types swapped','the message names the types in order',['C51','C52']),
M('x42','Format','INDENT_STEP','Definition INDENT_STEP : N := 4.','Definition INDENT_STEP : N := 2.','indents by two','each level is indented by four blanks',['C54']),
M('x43','Values','obj_len','N.of_nat (List.length (obj_pairs o))','N.of_nat (List.length (obj_pairs o)) + match obj_parent o with Some _ => 1 | None => 0 end','the parent counts','len counts the own fields',['C14','C45']),
M('x44','Values','get_obj','| _ => OErr (OE_TypeMismatch TObj (get_type v)) end','| _ => OErr (OE_TypeMismatch (get_type v) TObj) end','expected and found swapped','the error names the expected and the found type',['C15','C51']),
M('x45','Values','get_type','| VTup t => TTup (tup_types t)','| VTup t => TTup []','every Tup has the type Tup()','the type of a value is that of its parts',['C08','C09']),
M('x46','Values','obj_ptr_eq','obj_id a =? obj_id b','true','all Objs identical','identity distinguishes instances',['C40','C48','C37']),
M('x47','Parser','parse_obj_stream','pairs_loop fuel [] None 1 None','pairs_loop fuel [] None 2 None','root counted twice','63 containers inside the root',['C25']),
M('x48','Parser','load_file','| IStr => (Ok (VStr contents), sh)','| IStr => (Ok (VStr (filter (fun c => negb (c =? c_cr)) contents)), sh)','carriage returns dropped','<Str f> is the exact text of f',['C43','C24']),
M('x49','Parser','open_file','| inr msg => (inr (mkperr None (IoErrorKind msg)), sh\')','| inr msg => (inl [], sh\')','unreadable file read as empty','a file that cannot be read is an error',['C52','C43','C35']),
M('x50','Parser','scan_str','else if c =? c_quote then (SS_ok acc, (r\', l\', k\'))','else if (c =? c_quote) || (c =? c_nl) then (SS_ok acc, (r\', l\', k\'))','a newline ends a string','strings may contain newlines',['C19','C39']),
# ---- the laws C55-C64
M('y01','Parser','parse_include','if MAX_DEPTH <? depth then let* \'(l, k) := getpos in fail (MaxDepth l k)\n      else\n        let* c := next_unwrap in\n        let* _ := assert_ (c =? c_lt) in','if false then let* \'(l, k) := getpos in fail (MaxDepth l k)\n      else\n        let* c := next_unwrap in\n        let* _ := assert_ (c =? c_lt) in','no nesting limit for includes inside includes','the stack needed by a load is bounded',['C55','C41']),
M('y02','Parser','parse_value','parse_include n pairs (depth + 1)','parse_include n pairs depth','depth not incremented for includes','the stack needed by a load is bounded',['C55','C41']),
M('y03','Parser','parse_value','parse_arr n pairs (depth + 1)','parse_arr n pairs depth','depth not incremented for Arrs','the stack needed by a load is bounded',['C55','C25']),
M('y04','Parser','lookup_variable','| None => fail (GlobalNotFound var line col)','| None => match assoc (tl var) pairs with Some v => ret v | None => fail (GlobalNotFound var line col) end','an unknown global @x reads the field x','names of globals mean nothing',['C57','C21','C41']),
M('y06','Parser','binary_op_on_values','| TArr t => let* r := new_arr (arr_values a ++ arr_values b) t in ret (VArr r)','| TArr t => match arr_values b with [] => ret (VArr a) | _ => let* r := new_arr (arr_values a ++ arr_values b) t in ret (VArr r) end','a + [] returns the instance a','a sum of Arrs is a new instance',['C60','C39']),
M('y07','Parser','parse_tup','let* vs := tup_loop n pairs depth [] in\n        let* t := new_tup vs in\n        ret (VTup t)','let* vs := tup_loop n pairs depth [] in\n        match vs with [] => ret (VTup (tup_from_values 0 [])) | _ =>\n        let* t := new_tup vs in\n        ret (VTup t) end','all empty Tups are one instance (id 0)','literals are new instances',['C60','C40']),
M('y08','Parser','lookup_variable','match assoc var pairs with\n    | Some v => ret v','match assoc var pairs with\n    | Some (VArr a) => let* r := new_arr (arr_values a) (arr_inner_type a) in ret (VArr r)\n    | Some v => ret v','reading a field copies an Arr','a name gives the very instance',['C60','C39']),
M('y09','Parser','finish_include','let* _ := put_sh (mksh ((full_path, v) :: sh_vals sh) (sh_open sh)','let* _ := put_sh (mksh (match include_type with IStr => sh_vals sh | _ => (full_path, v) :: sh_vals sh end) (sh_open sh)','texts included with Str are not remembered','every file is read at most once',['C23','C58','C24']),
M('y10','Parser','finish_include','| Some v => ret v\n             | None =>\n                 let* v := run_include include_type path in','| Some v => let* _ := run_include include_type path in ret v\n             | None =>\n                 let* v := run_include include_type path in','a file is read and parsed again although its value is known','linear work; every file is read at most once',['C58','C23']),
M('y11','Walk','obj_format_within','opt_bind (obj_format_within k true (ind + INDENT_STEP) p) (fun f =>','opt_bind (obj_format_within (pred k) true (ind + INDENT_STEP) p) (fun f =>','two frames per parent','twice the depth of the data suffices',['C59']),
M('y12','Walk','value_eq_within','| VTup a, VTup b => tup_eq_within k a b','| VTup a, VTup b => Some (tup_eqb a b)','comparing Tups needs no stack','== needs at least as many frames as the data is deep',['C59']),
M('y13','Walk','get_within','| None => match par with Some p => get_within k p f | None => Some None end','| None => match par with Some p => Some (obj_get p f) | None => Some None end','get is a loop','get needs one frame per generation',['C59']),
M('y15','Parser','parse_field_value_pair','| FRegular => ret (ps ++ [(field_name, v)], par)','| FRegular => let* _ := insert_global (c_at :: field_name) v in ret (ps ++ [(field_name, v)], par)','every field is also a global','names of globals mean nothing; only what is read matters',['C57','C21','C39']),
M('y16','Parser','parse_arr','let* \'(vs, t) := arr_loop n pairs depth [] TAny true in','let* \'(vs, t) := arr_loop n [] depth [] TAny true in','an Arr literal sees no fields','Arr literals see the fields of their Obj',['C20','C39','C64']),
M('y17','Parser','parse_ops','let* val2 := parse_value n pairs line2 col2 depth cur_brace false in','let* val2 := parse_value n [] line2 col2 depth cur_brace false in','the second operand sees no fields','a name as an operand means its definition',['C64','C39','C16']),
M('y18','Parser','pairs_loop','if (more : bool) then pairs_loop n ps\' par\' depth cur_brace else ret (ps\', par\')','if (more : bool) then pairs_loop n ps\' None depth cur_brace else ret (ps\', par\')','only the last item can be the parent','lines can change places',['C39','C62','C41']),
M('y19','Parser','parse_field_value_pair','match assoc field_name g with\n               | Some _ => fail (DuplicateGlobal field_name field_line field_col)','match hd_error g with\n               | Some _ => fail (DuplicateGlobal field_name field_line field_col)','only one global per file','any number of globals',['C39','C41']),
M('y20','Parser','open_file','| Some (_, e) =>\n      let sh\' := log_ev (EOpen (fe_canon e)) sh in\n      match fe_read e with','| Some (_, e) =>\n      let sh\' := log_ev (EOpen (fe_canon e)) sh in\n      match fe_read (match fs_files fs with e1 :: _ => e1 | [] => e end) with','the wrong file is read','a load depends on the files it opens',['C56','C43','C35']),
# ---- C65, C66 and definitions not edited before
M('z01','Drop','drop_within','each_within (drop_within n) (hremove h a) (in_kids i)','Some (hremove h a)','the contents of a destroyed instance are not dropped','dropping the only handle frees everything reachable',['C65']),
M('z02','Drop','drop_within','else Some (hset_strong h a (in_strong i - 1))','else Some h','dropping does not decrement','dropping a handle takes one reference',['C65']),
M('z03','Drop','drop_within','if in_strong i =? 1 then each_within','if in_strong i <=? 2 then each_within','destroyed with a handle left','dropping a handle takes one reference',['C65']),
M('z04','Drop','drop_within','else Some (hset_strong h a (in_strong i - 1))','else each_within (drop_within n) (hset_strong h a (in_strong i - 1)) (in_kids i)','contents dropped with every handle','the outcome is that of the single steps',['C65']),
M('z05','Api','over_error_eqb','| OE_ArrTypeMismatch a b, OE_ArrTypeMismatch c d => ty_eqb a c && ty_eqb b d','| OE_ArrTypeMismatch a b, OE_ArrTypeMismatch c d => ty_eqb a c','found type ignored','errors compare by kind and data',['C66']),
M('z06','Api','over_error_eqb','| OE_TupTypeMismatch a b i, OE_TupTypeMismatch c d j => ty_eqb a c && ty_eqb b d && (i =? j)','| OE_TupTypeMismatch a b i, OE_TupTypeMismatch c d j => ty_is a c && ty_is b d && (i =? j)','types compared with is','types are compared up to compatibility',['C66']),
M('z07','Api','obj_pair_eqb','str_eqb (fst p) (fst q) && value_eqb (snd p) (snd q)','value_eqb (snd p) (snd q)','names ignored','pairs compare by name and value',['C66']),
M('z08','Values','get_bool','match v with VBool b => OOk b','match v with VBool b => OOk b | VInt 0 => OOk false','0 is false','getters are exact',['C15']),
M('z09','Values','get_int','match v with VInt z => OOk z |','match v with VInt z => OOk z | VFrac q => OOk (Qnum q) |','a Frac gives its numerator','getters are exact',['C15']),
M('z10','Values','get_arr','(OE_TypeMismatch (TArr TAny) (get_type v))','(OE_TypeMismatch TAny (get_type v))','expected Any','the error names the expected type',['C15']),
M('z11','Values','get_tup','match v with VTup t => OOk t','match v with VTup t => OOk (MkTup 0 (tup_types t) (tup_values t))','a copy with another id','getters return the stored value',['C15']),
M('z12','Values','is_null','match v with VNull => true | _ => false end','match v with VNull => true | VObj (MkObj _ [] None) => true | _ => false end','an empty Obj is null','is_null',['C15']),
M('z13','Values','tup_len','N.of_nat (List.length (tup_values t))','N.of_nat (List.length (tup_types t)) - 1','one too few','len counts the elements',['C45','C29']),
M('z14','Values','obj_is_empty','match obj_pairs o with [] => true | _ => false end','match obj_pairs o, obj_parent o with [], None => true | _, _ => false end','an Obj with a parent is not empty','is_empty is len == 0',['C45','C14']),
M('z15','Values','obj_has_parent','match obj_parent o with Some _ => true | None => false end','match obj_parent o with Some p => negb (obj_is_empty p) | None => false end','an empty parent is no parent','has_parent',['C45']),
M('z16','Values','arr_ptr_eq','arr_id a =? arr_id b','(arr_id a =? arr_id b) || arr_eqb a b','equal Arrs identical','identity distinguishes instances',['C60','C12','C40','C45']),
M('z17','Format','indent','repeat 32 (N.to_nat n)','repeat 9 (N.to_nat n)','tabs','four blanks per level',['C54']),
M('z18','Format','ratio_show','Z_to_dec (Qnum q) ++ [c_slash] ++ N_to_dec (Npos (Qden q))','Z_to_dec (Qnum q) ++ [c_percent] ++ N_to_dec (Npos (Qden q))','% for /','round trip',['C01','C36']),
M('z19','Format','format_str','[c_quote] ++ replace_all s ++ [c_quote]','[c_quote] ++ s ++ [c_quote]','no escapes','every string survives quoting',['C19','C01']),
M('z20','Errors','binop_show','| BDiv => lit "/" | BMod => lit "%"','| BDiv => lit "/" | BMod => lit "mod"','other name of %','the words of messages',['C53','C51']),
M('z21','Path','path_split','if c =? c_slash then [] :: path_split p','if (c =? c_slash) || (c =? c_bslash) then [] :: path_split p','backslash separates','relative to the directory of the including file',['C49']),
M('z22','Path','has_root','c :: _ => c =? c_slash','c :: _ => (c =? c_slash) || (c =? 126)','~ is absolute','relative to the directory of the including file',['C49']),
M('z23','Parser','drop_zeros','if c =? c_0 then drop_zeros l\' else l','if (c =? c_0) || (c =? 49) then drop_zeros l\' else l','trailing ones dropped too','exact decimal value',['C18']),
M('z24','Parser','frac_from_whole_and_dec','(10 ^ Z.of_nat dec_len)','(10 ^ (Z.of_nat dec_len - 1))','decimals shifted','exact decimal value',['C18']),
M('z25','Parser','parse_arr_stream','arr_file_loop fuel [] TAny true','arr_file_loop fuel [VNull] TNull false','an Arr file begins with null','an include means its file',['C43','C61']),
M('z26','Disk','decode','else if b0 <? 194 then None','else if b0 <? 192 then None','overlong forms accepted','only UTF-8 is read',['C47','C35']),
M('z27','Disk','decode','if (c <? 2048) || (55296 <=? c) && (c <? 57344) then None','if c <? 2048 then None','surrogates accepted','only UTF-8 is read; the unsafe stream is safe',['C47']),
M('z28','Stream','bytes_next','if Nat.eqb (c_cur c) (c_end c) then Done (None, c)','if Nat.eqb (c_cur c) (S (c_end c)) then Done (None, c)','reads one byte too many','memory safe',['C47']),
M('z29','Stream','release','match ce_borrow c with Shared (S (S n)) => Shared (S n) | _ => Unused end','ce_borrow c','a borrow is never released','no borrow panics',['C47']),
M('z30','Runtime','num_references','option_map in_strong (hfind (rt_heap s) a)','option_map (fun i => in_strong i - 1) (hfind (rt_heap s) a)','one too few','num_references is the number of handles',['C38']),
M('z31','Api','iter_next','x :: it\' => (Some x, it\')','x :: it\' => (Some x, tl it\')','every second element skipped','all views agree',['C45']),
M('z32','Api','obj_with_each','for_each (fun s p => f s (fst p) (snd p)) (obj_pairs o) s','for_each (fun s p => f s (fst p) (snd p)) (rev (obj_pairs o)) s','backwards','with_each goes in order',['C45']),
M('z33','Api','arr_try_from','arr_from_values id vs','OOk (arr_from_values_unchecked id vs TAny)','unchecked','try_from checks',['C45']),
M('z36','Parser','q_is_zero','Z.eqb (Qnum a) 0','Z.eqb (Qnum a) 1','1 counts as zero','arithmetic is total and exact',['C17']),
M('z37','Parser','q_div','Qred (Qdiv a b)','Qred (Qdiv b a)','swapped','arithmetic is exact',['C17']),
M('z39','Base','Z_to_dec','c_minus :: N_to_dec (Npos p)','N_to_dec (Npos p)','sign lost','round trip',['C01','C36']),
M('z40','Base','uint_chars','| Decimal.D7 u => 55 :: uint_chars u','| Decimal.D7 u => 49 :: uint_chars u','7 written like 1','round trip',['C01','C53']),
M('z34','Parser','canon','match fs_entry fs p with Some (_, e) => fe_canon e | None => None end','match fs_entry fs p with Some (_, e) => Some p | None => None end','the path instead of the canonical path','a file is the same file under all its names',['C22','C23','C43']),
M('z35','Parser','open_file','| inr msg => (inr (mkperr None (IoErrorKind msg)), sh\')','| inr msg => (inr (mkperr (Some path) (IoErrorKind msg)), sh\')','io errors name the file','words of messages',['C51','C52','C05']),
M('w01','Changing','open_during','open_file (H (moment (sh_log sh))) path sh','open_file (H 0%nat) path sh','all files read as at the beginning','each file is seen as at the moment it is opened',['C68']),
M('w02','Changing','open_during','open_file (H (moment (sh_log sh))) path sh','open_file (H (S (moment (sh_log sh)))) path sh','one moment too late','each file is seen as at the moment it is opened',['C68']),
M('w03','Parser','load_file','run_stream (parse_arr_stream fs (load_file k\') fuel) (Some path) contents sh in','run_stream (parse_arr_stream fs (load_file k\') fuel) None contents sh in','includes inside an Arr file are relative to the working directory','a project means what it says',['C67','C70','C43']),
M('w04','Parser','finish_include','| Some v => ret v\n             | None =>','| Some (VArr a) => let* b := new_arr (arr_values a ++ arr_values a) (arr_inner_type a) in ret (VArr b)\n             | Some v => ret v\n             | None =>','an Arr file included again gives its elements twice','remembering cannot be seen',['C67','C69','C43']),
M('w05','Parser','finish_include','match assoc full_path (sh_vals sh) with','match (if N.of_nat (List.length (sh_vals sh)) <? 2 then assoc full_path (sh_vals sh) else assoc (hd [] (map fst (sh_vals sh))) (sh_vals sh)) with','with two remembered files the latest one is taken','remembering cannot be seen',['C67','C69','C70']),
M('w06','Parser','lookup_variable','| None => fail (VariableNotFound var line col)','| None => match assoc (c_at :: var) [] with Some v => ret v | None => match rev pairs with p :: _ => ret (snd p) | [] => fail (VariableNotFound var line col) end end','an unknown name means the latest field','what nobody reads can be deleted; lines can change places',['C63','C62','C20']),
M('w08','Parser','lookup_variable','match assoc var g with\n    | Some v => ret v','match assoc var g with\n    | Some (VInt z) => ret (VInt (z + Z.of_nat (List.length g) - 1))\n    | Some v => ret v','the number of globals is added','what nobody reads can be deleted; a name means its definition',['C63','C64']),
M('w09','Parser','lookup_variable','match assoc var pairs with\n    | Some v => ret v','match assoc var pairs with\n    | Some (VInt z) => ret (VFrac (inject_Z z))\n    | Some v => ret v','a field read by name becomes a Frac','a name means the expression it was defined with',['C64','C20','C39']),
M('w10','Parser','parse_obj','let* \'(ps, par) := pairs_loop n [] None depth (Some c_rbrace) in','let* g := get_globals in\n          let* \'(ps, par) := pairs_loop n (match g with (x, v) :: _ => [(x, v)] | [] => [] end) None depth (Some c_rbrace) in','an object literal gets the latest global as a field','a literal and a file are interchangeable; scoping',['C61','C20','C39']),
M('w11','Parser','run_stream','let \'(o, s) := p (mkst file contents 1 1 [] sh) in (o, s_sh s)','let \'(o, s) := p (mkst file contents 1 1 (map (fun q => (c_at :: fst q, snd q)) (sh_vals sh)) sh) in (o, s_sh s)','an included file sees the files included before as globals','a project means what it says',['C67','C69','C43']),
M('w12','Parser','parse_obj_stream','let* \'(ps, par) := pairs_loop fuel [] None 1 None in','let* \'(ps, par) := pairs_loop fuel [] None 2 None in','a file has one level less than a text has','one level per file',['C61','C70','C39','C08']),
M('w13','Parser','sentinel','| Some i => (Ok (obj_empty i), s)','| Some i => (Ok (MkObj i [(lit "x", VNull)] None), s)','a keyword created before has a field','history independent',['C34','C24','C39']),
M('w14','Parser','new_arr','let* i := gen_id in ret (arr_from_values_unchecked i vs t)','let* i := gen_id in ret (arr_from_values_unchecked i (if i =? 7 then [] else vs) t)','the Arr with the id 7 is empty','history independent',['C34','C39']),
M('w15','Parser','parse_obj_stream','let* \'(ps, par) := pairs_loop fuel [] None 1 None in\n    new_obj ps par','let* \'(ps, par) := pairs_loop fuel [] None 1 None in\n    new_obj (rev ps) par','fields of a file backwards','appending keeps what was there; field order',['C50','C27','C39']),
M('w16','Parser','parse_field_value_pair','if existsb (fun p => str_eqb (fst p) field_name) ps\n               then fail (DuplicateField field_name field_line field_col)\n               else ret tt','if existsb (fun p => str_eqb (fst p) field_name) (rev (tl (rev ps)))\n               then fail (DuplicateField field_name field_line field_col)\n               else ret tt','a field may be written twice in a row','no name is written twice',['C27','C39','C07']),
M('w17','Parser','parse_field_value_pair','| FParent =>\n                 match get_obj v with\n                 | OOk o => ret (ps, Some o)','| FParent =>\n                 match get_obj v with\n                 | OOk o => ret (filter (fun p => negb (obj_contains o (fst p))) ps, Some o)','fields before ^ that the parent has are dropped','appending keeps what was there; lines can change places',['C50','C62','C39']),
M('w18','Parser','index_by','| OOk v => ret v\n          | OErr e','| OOk (VFrac q) => ret (VFrac (Qred (q + 1)))\n          | OOk v => ret v\n          | OErr e','an indexed Frac is one more','dot access gives the element',['C29','C39']),
M('w19','Format','format_obj','Some (indent ind ++ lit "^: " ++ f ++ [c_nl]))','Some (indent ind ++ lit "^ : " ++ f ++ [c_nl]))','a blank after ^','whatever was loaded can be written and re-loaded',['C02','C01','C54']),
M('w20','Path','path_join','if has_root p then p','if has_root p then d ++ p','absolute paths taken as relative','absolute paths are absolute',['C49']),
M('w21','Runtime','idm_step','| Idle => mkidm ((im_cur m + 1) mod usize_max_1) (set_thread','| Idle => mkidm (if Nat.even (length (im_taken m)) then im_cur m else (im_cur m + 1) mod usize_max_1) (set_thread','the increment is lost every second time','ids are unique',['C13']),
M('w22','Disk','wstep','(WOpen i (done ++ some) todo, put_bytes fs i (done ++ some))','(WOpen i (done ++ some) todo, put_bytes fs i some)','every write overwrites the start of the file','a written file can be loaded',['C35']),
M('w23','Parser','finish_include','if mem_str full_path (sh_open sh) then fail (CyclicInclude include_file line col)\n        else','if mem_str full_path (sh_open sh) then ret VNull\n        else','a cyclic include is null','a file including itself is rejected',['C23','C43','C67']),
M('w24','Parser','get_globals','fun s => (Ok (s_globals s), s)','fun s => (Ok (filter (fun p => negb (str_eqb (fst p) (lit "@tmp"))) (s_globals s)), s)','@tmp is never found','the name of a global means nothing',['C57','C39']),
M('w25','Parser','load_file','match open_file path sh with\n      | (inr e, sh) => (Err e, sh)\n      | (inl contents, sh) =>\n          let fuel','match open_file path sh with\n      | (inr e, sh) => (Ok VNull, sh)\n      | (inl contents, sh) =>\n          let fuel','an included file that cannot be read is null','an unreadable file is an error',['C43','C52','C67']),
M('w26','Parser','parse_arr_stream','arr_file_loop fuel [] TAny true in new_arr vs t','arr_file_loop fuel [] TAny true in new_arr vs (match vs with [] => TAny | v :: _ => get_type v end)','type of an Arr file is that of its first element','an Arr has the most specific type',['C09','C67','C43']),
M('o01','Amid','open_amid','open_file (now 3 sh) path sh','open_file (now 0 sh) path sh','the file is read when it is looked for','each file is seen as at the moment it is opened',['C71']),
M('o02','Amid','finish_amid','| None => panic             (* canonicalize().unwrap().to_str().unwrap() *)','| None => fail (InvalidIncludePath include_file line col)','an error instead of a panic','a load of what it saw, or ends at a missing file',['C71']),
M('o03','Amid','load_amid','| (inr e, sh) => (Err e, sh)\n      | (inl contents, sh) =>\n          let fuel','| (inr e, sh) => (Ok VNull, sh)\n      | (inl contents, sh) =>\n          let fuel','a vanished file is null','a load of what it saw, or ends at a missing file',['C71']),
M('o04','Amid','finish_amid','match canon (now 1 sh) path with\n    | None => fail (InvalidIncludePath include_file line col)','match canon (now 1 sh) path with\n    | None => ret VNull','a file that vanishes before canonicalize is null','a load of what it saw, or ends at a missing file',['C71']),
M('o05','Amid','finish_amid','let* _ := put_sh (mksh ((full_path, v) :: sh_vals sh) (sh_open sh)\n                                        (sh_log sh) (sh_g sh)) in\n                 ret v','ret v','nothing is remembered','each file is opened at most once; two includes of a file see the same',['C71']),
M('o06','Amid','finish_amid','| None =>\n                 let* v := run_include','| None =>\n                 if negb (is_file (now 1 sh) path) then ret VNull else\n                 let* v := run_include','a second look before opening, null if the file is gone','a load of what it saw, or ends at a missing file',['C71']),
M('o07','Amid','finish_amid','(if mem_str full_file (sh_open sh) then sh_open sh\n                                           else full_file :: sh_open sh)','(sh_open sh)','the current file is not noted','the load always ends',['C71']),
M('hd01','Parser','find_char_l',"if comment then find_char_l r' l' k' (negb","if comment then find_char_l r' l k' (negb",'the end of a comment does not count as a line','a header moves the reported lines by its lines',['C72','C51']),
M('hd02','Parser','parse_ops','| None => let* l := getline in fail (UnexpectedEnd l)\n              | Some _ =>\n                  let*','| None => fail (UnexpectedEnd 1)\n              | Some _ =>\n                  let*','always line 1','a header moves the reported lines',['C72','C51']),
M('hd03','Parser','parse_numeric','fail (InvalidNumeric line col)\n        | _, _ =>','fail (InvalidNumeric 1 col)\n        | _, _ =>','always line 1','a header moves the reported lines',['C72','C51']),
M('hd04','Parser','finish_include','fail (CyclicInclude include_file line col)','fail (CyclicInclude include_file (N.of_nat (List.length (sh_vals sh))) col)','the number of files instead of the line','a header moves the reported lines',['C72','C51']),
M('hd05','Parser','find_char_l','else if c =? c_hash then find_char_l','else if (c =? c_hash) && negb (l =? 1) then find_char_l','no comments in the first line','a header changes nothing else',['C72','C39']),
M('hd06','Errors','from_over','over_error_show e ++ lit " at line " ++ N_to_dec l','over_error_show e ++ lit " at line " ++ N_to_dec c','the column twice','a header moves the reported lines',['C72','C53']),
M('u01','Api','arr_macro','| _ => unwrap (try_arr_macro id es)','| _ => Some (arr_from_values_unchecked id (map value_from es) TAny)','arr! does not check','arr! panics exactly if the types differ',['C46']),
M('u02','Api','tup_from','Definition tup_from (id : N) (vs : list value) : tup := tup_from_values id vs.','Definition tup_from (id : N) (vs : list value) : tup := tup_from_values id (rev vs).','backwards','all views agree',['C45']),
M('u03','Api','arr_with_each','for_each f (arr_values a) s','for_each f (tl (arr_values a)) s','the first element is skipped','with_each visits every element',['C45']),
M('u04','Api','int_macro','match n with NInt _ z | NBigInt z => Some z | _ => None end','match n with NInt _ z => Some (Z.modulo z 4294967296) | NBigInt z => Some z | _ => None end','truncated to 32 bits','native values convert exactly',['C46']),
M('u05','Api','try_arr_macro','arr_from_values id (map value_from es)','arr_from_values id (map value_from (rev es))','backwards','macros build what they say',['C46']),
M('u06','Api','obj_macro','| [] => Some (obj_empty id)','| [] => None','obj!{} panics','macros panic exactly when they must',['C46']),
M('u07','Api','tup_is_empty','match tup_values t with [] => true | _ => false end','match tup_values t with [] => true | [_] => true | _ => false end','a Tup of one is empty','all views agree',['C45']),
M('u08','Api','tup_empty','tup_from_values id []','tup_from_values id [VNull]','not empty','empty is empty',['C45']),
M('u10','Format','obj_display','format_obj true INDENT_STEP o','format_obj false INDENT_STEP o','without braces','Display output is a value literal',['C54','C59']),
M('u11','Format','arr_display','format_arr true INDENT_STEP a','format_arr false INDENT_STEP a','without brackets','Display output is a value literal',['C54']),
M('u12','Format','tup_display','format_tup true INDENT_STEP t','format_tup true 0 t','indentation starts at 0','Display never panics',['C54']),
M('u13','Path','include_cur_dir','| [c] => c =? c_dot','| [c] => false','the path . has no leading dot','include paths are relative to the directory of the file',['C49']),
M('u14','Path','seg_skipped','str_eqb s [] || str_eqb s (lit ".")','str_eqb s []','dots are components','include paths are relative to the directory of the file',['C49']),
M('u16','Disk','read_bytes','| None => inr invalid_utf8','| None => inl []','a file that is not UTF-8 is read as empty','a broken file is an error',['C35','C47']),
M('u17','Disk','put_bytes','(mkfe (fe_canon e) (read_bytes bs))','(mkfe None (read_bytes bs))','a written file has no canonical path','a written file can be loaded',['C35']),
M('u18','Disk','write_to_file','write_to_string o = Some text /\\ wreach path text fs0 (WEnd r) fs.','write_to_string o = Some text /\\ wreach path (removelast text) fs0 (WEnd r) fs.','the last character is not written','a written file has the written text',['C35']),
M('u19','Runtime','ptr_eq','Definition ptr_eq (a b : addr) : bool := a =? b.','Definition ptr_eq (a b : addr) : bool := a <=? b.','wrong comparison','ptr_eq is identity',['C38']),
M('u20','Runtime','hremove','if a =? b then h\' else (b, i) :: hremove h\' a','(b, i) :: hremove h\' a','instances are never freed','an instance is freed with its last handle',['C38','C65']),
M('u21','Stream','cs_line','Definition cs_line (i : nat) : W N := let! x := borrow i in let! _ := release i in wret (i_line x).','Definition cs_line (i : nat) : W N := let! x := borrow i in let! _ := release i in wret (i_col x).','line and column exchanged','the stream is exact',['C47']),
M('u22','Stream','cs_set_col','(mkinner (i_file x) (i_contents x) (i_chars x) (i_peeked x) (i_line x) v)','(mkinner (i_file x) (i_contents x) (i_chars x) None (i_line x) v)','set_col drops the peeked character','the stream is exact',['C47']),
M('u23','Drop','each_within','match f h a with Some h\' => each_within f h\' l\' | None => None end','f h a','only the first child is dropped','dropping frees what nobody holds',['C65']),
M('u24','Drop','drop_within','if in_strong i =? 1 then','if in_strong i <=? 2 then','freed one handle too early','dropping frees what nobody holds',['C65']),
M('u25','Walk','vec_eq','if negb (Nat.eqb (length l) (length m)) then Some false else all_eq f l m','all_eq f l m','lengths are not compared','comparing needs as much stack as the data is deep',['C59']),
M('u26','Walk','ty_eq_within','| TTup l1 => match b with TTup l2 => vec_eq (ty_eq_within k) l1 l2 | _ => Some false end','| TTup l1 => match b with TTup l2 => Some true | _ => Some false end','types of Tups are not compared','comparing needs as much stack as the data is deep',['C59']),
M('u27','Stream','dealloc','| Some (Some _) => Done (upd h buf None)','| Some (Some _) => Done h','the buffer is never freed','nothing leaks',['C47']),
# ---- definitions without a mutant so far
M('qa01','Values','arr_from_values','| inl t => OOk (arr_from_values_unchecked id vs t)','| inl t => OOk (arr_from_values_unchecked id vs TAny)','the type found for the elements is not stored','an Arr has the least common type of its elements',['C09']),
M('qa02','Values','arr_len','Definition arr_len (a : arr) : N := N.of_nat (List.length (arr_values a)).','Definition arr_len (a : arr) : N := N.of_nat (List.length (arr_values a)) - 1.','len off by one','len is the number of elements; get is bounds checked',['C29','C45']),
M('qa03','Values','obj_from_pairs','| None => OOk (obj_from_pairs_unchecked id ps par)','| None => OOk (obj_from_pairs_unchecked id ps None)','from_pairs forgets the parent','from_pairs keeps pairs and parent',['C31']),
M('qa04','Values','try_obj','      | OErr e => OErr e\n      end\n  | None => obj_from_pairs id ps None','      | OErr e => obj_from_pairs id ps None\n      end\n  | None => obj_from_pairs id ps None','a parent that is no Obj is dropped silently','try_obj! reports a parent that is not an Obj',['C31']),
M('qa05','Values','tup_ptr_eq','Definition tup_ptr_eq (a b : tup) : bool := tup_id a =? tup_id b.','Definition tup_ptr_eq (a b : tup) : bool := list_eqb value_eqb (tup_values a) (tup_values b).','ptr_eq compares the contents','ptr_eq is identity',['C45']),
M('qa06','Values','obj_empty','Definition obj_empty (id : N) : obj := MkObj id [] None.','Definition obj_empty (id : N) : obj := MkObj 0 [] None.','empty Objs have the id 0','every instance has its own id',['C45','C46']),
M('qa07','Api','tup_with_each','for_each f (tup_values t) s.','for_each f (tl (tup_values t)) s.','with_each skips the first','with_each visits all elements in order',['C45']),
M('qa08','Format','value_display','Definition value_display (v : value) : option str := format_value true INDENT_STEP v.','Definition value_display (v : value) : option str := format_value true 0 v.','Display indents differently from what is documented','layout of Display',['C54']),
M('qa09','Format','write_to_string','Definition write_to_string (o : obj) : option str := format_obj false 0 o.','Definition write_to_string (o : obj) : option str := format_obj true 0 o.','the written text has braces around it','what is written can be loaded again',['C01']),
M('qa10','Parser','parse_obj_stream',"Definition parse_obj_stream (fuel : nat) : M obj :=\n  let* found := find_char in","Definition parse_obj_stream (fuel : nat) : M obj :=\n  let* odd := (fun s => (Ok (existsb (N.eqb 0) (s_rest s)), s)) in\n  let* _ := (if odd : bool then fail (InvalidValue (lit \"0\") 1 1) else ret tt) in\n  let* found := find_char in",'the whole text is searched for NUL characters before anything is parsed','the first fault is the one reported, whatever follows',['C73']),
M('qa11','Parser','insert_global','set_globals s ((f, v) :: s_globals s)','set_globals s (s_globals s ++ [(f, v)])','a new global is put at the end (harmless: names are distinct)','none: equivalent mutant',[]),
M('qa12','Parser','run_include',"let '(o, sh) := load_inc ty path (s_sh s) in (o, set_sh s sh).","let '(o, sh) := load_inc ty path (s_sh s) in (o, set_sh s (mksh (sh_vals (s_sh s)) (sh_open sh) (sh_log sh) (sh_g sh))).",'files included by an included file are not remembered','each file is read at most once per load',['C23']),
M('qa13','Parser','tup_file_loop','tup_file_loop n (vs ++ [v])','tup_file_loop n (v :: vs)','the elements of a Tup file in reverse','an included Tup has the values of its file in order',['C39','C43']),
M('qa14','Parser','trim_end_zeros','Definition trim_end_zeros (s : str) : str := rev (drop_zeros (rev s)).','Definition trim_end_zeros (s : str) : str := drop_zeros s.','leading instead of trailing zeros of a fraction are dropped','numeric literals denote their exact decimal value',['C18']),
M('qa15','Parser','q_mul','Definition q_mul (a b : Q) : Q := Qred (Qmult a b).','Definition q_mul (a b : Q) : Q := Qmult a b.','products are not reduced','Fracs are kept in lowest terms; equal values are written alike',['C17','C07']),
M('qa16','Parser','parse_bigint','| [] => raise (mkperr None (ParseIntErrorKind (lit "cannot parse integer from empty string")))\n  | _ =>','| [] => ret 0%Z\n  | _ =>','no digits read as 0','a number has digits',['C41','C52']),
M('qa17','Parser','g_draw','mkg (g_next g + 1) (g_obj g)','mkg (g_next g) (g_obj g)','the counter is not advanced','ids are unique',['C40']),
M('qa18','Parser','has_parent','| Some f => match path_parent f with Some _ => true | None => false end\n  | None => true','| Some f => match path_parent f with Some _ => true | None => false end\n  | None => false','a text that is not in a file cannot include','an include in a text is relative to the current directory',['C43']),
# ---- C74, C75, C76
M('na01','Parser','lookup_variable','match assoc var g with\n    | Some v => ret v','match find (fun p => str_eqb (firstn 8 (fst p)) (firstn 8 var)) g with\n    | Some (_, v) => ret v','only the first eight characters of a global count','the edited global is reached through other names; names mean nothing',['C57','C75','C21']),
M('na02','Parser','parse_field','| _ => ret (field, if is_global','| _ => ret (firstn 64 field, if is_global','names are cut after 64 characters','fields can be renamed to any names; a loaded Obj has the fields of the text',['C74','C39']),
M('na04','Parser','binary_op_on_values','ret (VInt (a + b))','ret (VInt ((a + b + 9223372036854775808) mod 18446744073709551616 - 9223372036854775808)%Z)','sums of Ints wrap at 64 bits','arithmetic is exact; constants may be computed',['C17','C76']),
M('na05','Parser','parse_bigint','| _ => if forallb is_digit s then','| _ => if forallb is_digit s && (List.length s <=? 38)%nat then','integers of more than 38 digits are refused','any constant can be written as a literal',['C18','C76','C41']),
M('na06','Parser','parse_field_value_pair','| FRegular => ret (ps ++ [(field_name, v)], par)','| FRegular => ret (map (fun p => match snd p with VNull => (fst p, v) | _ => p end) ps ++ [(field_name, v)], par)','a null field takes the value of the next field','an edit reaches only what uses it',['C75','C39','C20']),
# ---- C77
M('sz01','Parser','frac_from_whole_and_dec','ratio_new decimal (10 ^ Z.of_nat dec_len)','ratio_new decimal (10 ^ (10 ^ Z.of_nat dec_len))','the denominator of a decimal fraction is 10^(10^digits)','numbers in loaded data are bounded by 16^(4^n)',['C77','C18']),
M('sz02','Parser','binary_op_on_values','ret (VInt (a * b))','ret (VInt (a ^ b))','* on Ints is power','numbers in loaded data are bounded by 16^(4^n)',['C77','C17']),
M('sz03','Parser','finish_include','let* _ := put_sh (mksh ((full_path, v) :: sh_vals sh)','let* _ := put_sh (mksh ((full_path, match v with VStr t => VStr (List.concat (repeat t (2 ^ List.length t))) | _ => v end) :: sh_vals sh)','a file included again as a Str is repeated 2^length times','the data is bounded by the characters read',['C77','C22']),
# ---- C78, C79
M('cl01','Values','tup_eqb','if negb (list_eqb ty_eqb t1 t2) then false else list_eqb value_eqb v1 v2','list_eqb ty_eqb t1 t2','Tups of the same types are equal','equal values cannot be told apart',['C78','C12']),
M('cl02','Values','obj_eqb','| MkObj _ p1 par1, MkObj _ p2 par2 =>\n      match par1, par2 with','| MkObj i1 p1 par1, MkObj i2 p2 par2 =>\n      if negb (i1 =? i2) then false else match par1, par2 with','== of Objs compares ids','values that no program can tell apart are equal',['C78','C12']),
M('cl03','Values','obj_contains','existsb (fun p => str_eqb f (fst p)) (obj_pairs o).','negb (obj_id o =? 0) && existsb (fun p => str_eqb f (fst p)) (obj_pairs o).','contains takes id 0 for no Obj','equal values cannot be told apart',['C78']),
M('id01','Parser','binary_op_on_values','| TArr t => let* r := new_arr (arr_values a ++ arr_values b) t in ret (VArr r)','| TArr t => let* _ := (fix go (l : list value) : M N := match l with [] => gen_id | _ :: l => let* _ := gen_id in go l end) (arr_values a) in let* r := new_arr (arr_values a ++ arr_values b) t in ret (VArr r)','a sum of Arrs draws an id for each element','a load takes linearly many ids',['C79']),
M('id02','Parser','g_draw','mkg (g_next g + 1) (g_obj g)','mkg (2 * g_next g + 1) (g_obj g)','the id counter is doubled at every draw','the counter is bounded by what was loaded',['C79']),
M('rv01','Parser','binary_op_on_values','ret (VFrac (q_add a b))','ret (let q := q_add a b in if Z.eqb (Zpos (Qden q)) 1 then VInt (Qnum q) else VFrac q)','a sum of Fracs that is whole is an Int','another fraction does not change the type of a field',['C80','C17']),
M('rv02','Parser','binary_op_on_values','ret (VStr (a ++ b))','match b with [] => operr | _ => ret (VStr (a ++ b)) end','adding an empty Str is an error','with other texts the file still loads',['C80','C17']),
M('rv03','Parser','parse_variable','str_eqb var (lit "true") then ret (VBool true)','str_eqb var (lit "true") then let* _ := gen_id in ret (VBool true)','true draws an id','with other truth values the containers keep their identity',['C80','C76']),
M('wl01','Format','format_obj','opt_bind (format_value true (ind + INDENT_STEP) v) (fun f =>\n                Some (indent ind ++ field','opt_bind (format_value true (ind + ind + INDENT_STEP) v) (fun f =>\n                Some (indent ind ++ field','the indentation doubles with every level','at most four blanks per line and level',['C81','C54']),
M('wl02','Format','format_obj','Some (indent ind ++ lit "^: " ++ f ++ [c_nl])','Some (indent ind ++ lit "^: " ++ f ++ [c_nl; c_nl])','an empty line after the parent','as many lines as the data needs',['C81','C54']),
M('wl03','Format','format_str','[c_quote] ++ replace_all s ++ [c_quote]','[c_quote] ++ replace_all s ++ replace_all [] ++ [c_quote] ++ (if 80 <? N.of_nat (List.length s) then lit " # long" else [])','a comment after long texts','the characters of the data and no others',['C81','C54']),
M('nb01','Values','value_eq_native','(z <=? hi)%Z then Some z','(z <? hi)%Z then Some z','the largest native number is out of range','v == n iff v is the Int n',['C32']),
M('nb02','Values','value_eq_native','then Some z else None) with','then Some z else Some 0%Z) with','to_<type>().unwrap_or(0)','numbers out of range equal no native number',['C32']),
M('nb03','Api','value_eq_to','| NBigRational q => match v with VFrac x => Qeq_bool x q | _ => false end','| NBigRational q => match v with VFrac x => Qeq_bool x q | VInt z => Qeq_bool (z # 1) q | _ => false end','an Int equals a BigRational','no value equals natives of two classes',['C44']),
M('nb04','Api','to_int','(z <=? int_hi k))%Z','(z <? int_hi k + 2))%Z','one more than the range','a native number in the range only',['C44']),
M('nb05','Runtime','idm_step','((im_cur m + 1) mod usize_max_1)','((im_cur m + 1) mod 4294967296)','a 32-bit counter','unique until 2^64',['C13']),
M('nb06','Runtime','idm_step','((t, id) :: im_instances m)','((t, im_cur m) :: im_instances m)','the instance reads the counter when it is allocated','ids are unique under every schedule',['C13']),
# ---- C82
M('fl01','Values','obj_get','match assoc f ps with\n      | Some v => Some v\n      | None => match par with Some p => obj_get p f | None => None end\n      end\n  end.\n\n(** src/obj.rs:227','match (match par with Some p => obj_get p f | None => None end) with\n      | Some v => Some v\n      | None => assoc f ps\n      end\n  end.\n\n(** src/obj.rs:227','the inherited value wins over the own one','reading a field of the flat Obj gives the same',['C82','C14']),
M('fl02','Values','obj_get','| None => match par with Some p => obj_get p f | None => None end\n      end\n  end.\n\n(** src/obj.rs:227','| None => match par with Some (MkObj _ qs _) => assoc f qs | None => None end\n      end\n  end.\n\n(** src/obj.rs:227','only the parent is asked, not its parents','the fields of the flat Obj are those that can be read',['C82','C14']),
M('fl03','Values','obj_contains','existsb (fun p => str_eqb f (fst p)) (obj_pairs o).','match obj_get o f with Some _ => true | None => false end.','contains looks into parents','only ==, len and contains tell the two apart',['C82','C14']),
]

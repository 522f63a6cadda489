(** * Parser: model of /repo/src/parse/char_stream.rs, parser.rs, mod.rs and the file reading of
    parse/util.rs.

    The parser is a state/error monad.  [Panic] is a Rust panic (unwrap on None/Err, failed
    assert, usize underflow, zero denominator, "Logic error"); [NoFuel] means that the model's
    recursion budget was too small (proved unreachable from the entry points). *)
From Verif Require Export Errors Path.
From Coq Require Import String.
Open Scope N_scope.

Inductive outcome (A : Type) :=
| Ok (a : A)
| Err (e : perr)
| Panic
| NoFuel.
Arguments Ok {A} a.
Arguments Err {A} e.
Arguments Panic {A}.
Arguments NoFuel {A}.

(** parser.rs:998-1003 [enum IncludeType] *)
Inductive inc_ty := IObj | IStr | IArr | ITup.

(** Process-global state: the id counter (lib.rs:59-61 CUR_ID) and the four lazily created
    sentinel Objs (parser.rs:32-38), represented by their ids once created.
    Simplification: the counter is unbounded here; its wrap-around is in Runtime.v.
    [g_others] is what the other threads of the process will do to this state while a load runs: between two
    of the load's own uses of it they draw ids (for whatever they create) and create sentinels (one block of
    [g_others] per own use).  All theorems hold for every [g_others], that is under any interference. *)
Inductive other_act := ODraw | OKeyword (k : inc_ty).
Record gstate := mkg {
  g_next : N;
  g_obj : option N; g_str : option N; g_arr : option N; g_tup : option N;
  g_others : list (list other_act);
  g_taken : list N    (* the ids the other threads drew for themselves; nothing in the model reads it *)
}.

(** ** File system (assumed not to change during a load).

    A path string either resolves to one of finitely many regular files or not (then
    [Path::is_file] is false and opening fails with message [fs_open_err]).  A file has the
    canonical absolute path [fe_canon] ([None]: [canonicalize] fails or the path is not UTF-8) and
    either contents or the I/O error that reading it gives (permission, invalid UTF-8...).
    A path without a last component (the empty path, the root) names no regular file; so a file that is
    being read has a [Path::parent]. *)
Record fentry := mkfe { fe_canon : option str; fe_read : str + str }.
Record fsys := mkfs {
  fs_resolve : str -> option nat;
  fs_files : list fentry;
  fs_open_err : str -> str
}.
Definition fs_entry (fs : fsys) (p : str) : option (nat * fentry) :=
  match path_parent p, fs_resolve fs p with
  | Some _, Some i => match nth_error (fs_files fs) i with Some e => Some (i, e) | None => None end
  | _, _ => None
  end.
Definition is_file (fs : fsys) (p : str) : bool :=
  match fs_entry fs p with Some _ => true | None => false end.
(** [path.canonicalize()] followed by [to_str()] *)
Definition canon (fs : fsys) (p : str) : option str :=
  match fs_entry fs p with Some (_, e) => fe_canon e | None => None end.

(** State shared by all files of one load: parser.rs:30 [IncludedMap] (values by canonical path;
    set of files on the include stack), the process-global state, and an event log, newest event
    first.  The log is an instrument: nothing in the model reads it.
    [EOpen c]: a file with canonical path [c] was opened; [EDone c]: its parse succeeded;
    [ETry c]: an include of the file with canonical path [c] was requested;
    [EInc c ty v]: an include <ty ..> of that file evaluated to [v]. *)
Inductive event :=
| EOpen (c : option str) | EDone (c : option str) | ETry (c : str)
| EInc (c : str) (ty : inc_ty) (v : value).
Record shared := mksh {
  sh_vals : list (str * value);
  sh_open : list str;
  sh_log : list event;
  sh_g : gstate
}.
Definition log_ev (e : event) (sh : shared) : shared :=
  mksh (sh_vals sh) (sh_open sh) (e :: sh_log sh) (sh_g sh).

(** Parser state of one stream: char_stream.rs:13-20 [Inner] (file, remaining chars, line, col),
    the globals of the file (parser.rs:29 [GlobalMap]) and the shared state. *)
Record pstate := mkst {
  s_file : option str;
  s_rest : str;
  s_line : N;
  s_col : N;
  s_globals : list (str * value);
  s_sh : shared
}.

Definition M (A : Type) := pstate -> outcome A * pstate.
Definition ret {A} (a : A) : M A := fun s => (Ok a, s).
Definition bind {A B} (m : M A) (f : A -> M B) : M B := fun s =>
  match m s with
  | (Ok a, s') => f a s'
  | (Err e, s') => (Err e, s')
  | (Panic, s') => (Panic, s')
  | (NoFuel, s') => (NoFuel, s')
  end.
Notation "'let*' x ':=' m 'in' k" := (bind m (fun x => k))
  (at level 200, x name, m at level 100, k at level 200, right associativity).
Notation "'let*' ' p ':=' m 'in' k" := (bind m (fun x => match x with p => k end))
  (at level 200, p strict pattern, m at level 100, k at level 200, right associativity).

Definition panic {A} : M A := fun s => (Panic, s).
Definition nofuel {A} : M A := fun s => (NoFuel, s).
(** parse/error.rs:10-12 [parse_err(stream.file(), kind)] *)
Definition fail {A} (k : pkind) : M A := fun s => (Err (mkperr (s_file s) k), s).
Definition raise {A} (e : perr) : M A := fun s => (Err e, s).

Definition set_stream (s : pstate) (r : str) (l c : N) : pstate :=
  mkst (s_file s) r l c (s_globals s) (s_sh s).
Definition set_globals (s : pstate) (g : list (str * value)) : pstate :=
  mkst (s_file s) (s_rest s) (s_line s) (s_col s) g (s_sh s).
Definition set_sh (s : pstate) (sh : shared) : pstate :=
  mkst (s_file s) (s_rest s) (s_line s) (s_col s) (s_globals s) sh.
Definition set_g (sh : shared) (g : gstate) : shared :=
  mksh (sh_vals sh) (sh_open sh) (sh_log sh) g.

(** ** char_stream.rs *)

(** char_stream.rs:97-117: line and column after consuming [c]. *)
Definition adv (c : char) (l k : N) : N * N :=
  if c =? c_nl then (l + 1, 1) else (l, k + 1).

(** char_stream.rs:58-66 [peek], 97-117 [next], 73-81 [line], [col] *)
Definition peek : M (option char) := fun s =>
  (Ok (match s_rest s with [] => None | c :: _ => Some c end), s).
Definition next : M (option char) := fun s =>
  match s_rest s with
  | [] => (Ok None, s)
  | c :: r => let '(l, k) := adv c (s_line s) (s_col s) in (Ok (Some c), set_stream s r l k)
  end.
Definition getline : M N := fun s => (Ok (s_line s), s).
Definition getcol : M N := fun s => (Ok (s_col s), s).
Definition getpos : M (N * N) := fun s => (Ok (s_line s, s_col s), s).
Definition getfile : M (option str) := fun s => (Ok (s_file s), s).

Definition unwrap {A} (o : option A) : M A := match o with Some a => ret a | None => panic end.
Definition unwrap_o {A} (o : ores A) : M A := match o with OOk a => ret a | OErr _ => panic end.
Definition peek_unwrap : M char := let* o := peek in unwrap o.
Definition next_unwrap : M char := let* o := next in unwrap o.
(** [assert_eq!(ch, c)] *)
Definition assert_ (b : bool) : M unit := if b then ret tt else panic.
(** [stream.col() - 1] *)
Definition col_minus_1 : M N := fun s => if s_col s =? 0 then (Panic, s) else (Ok (s_col s - 1), s).

(** ** ids and sentinels *)

Definition g_sent (g : gstate) (k : inc_ty) : option N :=
  match k with IObj => g_obj g | IStr => g_str g | IArr => g_arr g | ITup => g_tup g end.
Definition g_set_sent (g : gstate) (k : inc_ty) (i : N) : gstate :=
  match k with
  | IObj => mkg (g_next g) (Some i) (g_str g) (g_arr g) (g_tup g) (g_others g) (g_taken g)
  | IStr => mkg (g_next g) (g_obj g) (Some i) (g_arr g) (g_tup g) (g_others g) (g_taken g)
  | IArr => mkg (g_next g) (g_obj g) (g_str g) (Some i) (g_tup g) (g_others g) (g_taken g)
  | ITup => mkg (g_next g) (g_obj g) (g_str g) (g_arr g) (Some i) (g_others g) (g_taken g)
  end.
(** lib.rs:64-66 [CUR_ID.fetch_add(1)], in any thread *)
Definition g_draw (g : gstate) : gstate :=
  mkg (g_next g + 1) (g_obj g) (g_str g) (g_arr g) (g_tup g) (g_others g) (g_taken g).
(** parser.rs:32-38: dereferencing a [lazy_static] sentinel, in any thread.  [lazy_static] lets one thread create
    it; other threads that want it wait. *)
Definition g_keyword (g : gstate) (k : inc_ty) : gstate :=
  match g_sent g k with Some _ => g | None => g_set_sent (g_draw g) k (g_next g) end.
Definition g_take (g : gstate) (i : N) : gstate :=
  mkg (g_next g) (g_obj g) (g_str g) (g_arr g) (g_tup g) (g_others g) (i :: g_taken g).
Definition g_act (g : gstate) (a : other_act) : gstate :=
  match a with ODraw => g_take (g_draw g) (g_next g) | OKeyword k => g_keyword g k end.
(** The other threads do the next block of [g_others]. *)
Definition interfere (g : gstate) : gstate :=
  match g_others g with
  | [] => g
  | b :: bs => fold_left g_act b (mkg (g_next g) (g_obj g) (g_str g) (g_arr g) (g_tup g) bs (g_taken g))
  end.
(** The state after this thread drew an id, resp. created a sentinel, and the others did their block. *)
Definition bump (g : gstate) : gstate := interfere (g_draw g).
Definition g_new_sent (g : gstate) (k : inc_ty) : gstate := interfere (g_set_sent (g_draw g) k (g_next g)).

(** lib.rs:64-66 [gen_id] *)
Definition gen_id : M N := fun s =>
  let sh := s_sh s in let g := sh_g sh in
  (Ok (g_next g), set_sh s (set_g sh (bump g))).

(** parser.rs:32-38: dereferencing a [lazy_static] sentinel creates it on first use. *)
Definition sentinel (k : inc_ty) : M obj := fun s =>
  let sh := s_sh s in let g := sh_g sh in
  match g_sent g k with
  | Some i => (Ok (obj_empty i), s)
  | None => (Ok (obj_empty (g_next g)), set_sh s (set_g sh (g_new_sent g k)))
  end.

(** obj.rs:132-138, arr.rs:65-73, tup.rs:32-42 with the id drawn from the counter *)
Definition new_obj (ps : list pair_t) (par : option obj) : M obj :=
  let* i := gen_id in ret (obj_from_pairs_unchecked i ps par).
Definition new_arr (vs : list value) (t : ty) : M arr :=
  let* i := gen_id in ret (arr_from_values_unchecked i vs t).
Definition new_tup (vs : list value) : M tup :=
  let* i := gen_id in ret (tup_from_values i vs).

(** ** Scanning loops.  They are structural on the remaining chars and return the stream
    position they stop at. *)

(** parser.rs:1319-1342 [find_char].  [comment] is true inside the inner loop (1324-1332). *)
Fixpoint find_char_l (r : str) (l k : N) (comment : bool) : bool * (str * N * N) :=
  match r with
  | [] => (false, (r, l, k))
  | c :: r' =>
      let '(l', k') := adv c l k in
      if comment then find_char_l r' l' k' (negb (c =? c_nl))
      else if c =? c_hash then find_char_l r' l' k' true
      else if ch_is_whitespace c then find_char_l r' l' k' false
      else (true, (r, l, k))
  end.
Definition find_char : M bool := fun s =>
  let '(b, (r, l, k)) := find_char_l (s_rest s) (s_line s) (s_col s) false in
  (Ok b, set_stream s r l k).

(** parser.rs:962-986, the loop of [parse_str]. *)
Inductive str_scan := SS_ok (s : str) | SS_bad_escape (c : char) | SS_end.
Fixpoint scan_str (r : str) (l k : N) (acc : str) (escape : bool) : str_scan * (str * N * N) :=
  match r with
  | [] => (SS_end, (r, l, k))
  | c :: r' =>
      let '(l', k') := adv c l k in
      if escape then
        match get_escape_char c with
        | Some e => scan_str r' l' k' (acc ++ [e]) false
        | None => (SS_bad_escape c, (r', l', k'))
        end
      else if c =? c_quote then (SS_ok acc, (r', l', k'))
      else if c =? c_bslash then scan_str r' l' k' acc true
      else scan_str r' l' k' (acc ++ [c]) false
  end.

(** parser.rs:955-989 [parse_str] *)
Definition parse_str : M value :=
  let* c := next_unwrap in
  let* _ := assert_ (c =? c_quote) in
  let* r := (fun s => let '(x, (r, l, k)) := scan_str (s_rest s) (s_line s) (s_col s) [] false in
                      (Ok x, set_stream s r l k)) in
  match r with
  | SS_ok s => ret (VStr s)
  | SS_bad_escape c =>
      let* l := getline in
      let* k := col_minus_1 in
      fail (InvalidEscapeChar c l k)
  | SS_end => let* l := getline in fail (UnexpectedEnd l)
  end.

(** parser.rs:691-734, the loop of [parse_numeric]. *)
Inductive num_scan := NS_ok (s1 s2 : str) (dec : bool) | NS_bad (c : char).
Fixpoint scan_numeric (r : str) (l k : N) (s1 s2 : str) (dec under : bool)
  : num_scan * (str * N * N) :=
  match r with
  | [] => (NS_ok s1 s2 dec, (r, l, k))
  | c :: r' =>
      let '(l', k') := adv c l k in
      if is_value_end_char c then (NS_ok s1 s2 dec, (r, l, k))
      else if is_digit c then
        if negb dec then scan_numeric r' l' k' (s1 ++ [c]) s2 dec false
        else scan_numeric r' l' k' s1 (s2 ++ [c]) dec false
      else if (c =? c_dot) || (c =? c_comma) then
        if negb dec then scan_numeric r' l' k' s1 s2 true false
        else (NS_bad c, (r, l, k))
      else if c =? c_under then
        if negb under then scan_numeric r' l' k' s1 s2 dec true
        else (NS_bad c, (r, l, k))
      else (NS_bad c, (r, l, k))
  end.

(** [s2.trim_end_matches('0')] *)
Fixpoint drop_zeros (l : str) : str :=
  match l with
  | c :: l' => if c =? c_0 then drop_zeros l' else l
  | [] => []
  end.
Definition trim_end_zeros (s : str) : str := rev (drop_zeros (rev s)).

(** [s.parse::<BigInt>()?]: fails on an empty string or a non-digit (message of
    [ParseBigIntError], num-bigint); [From<ParseBigIntError>], parse/error.rs:208-215. *)
Definition parse_bigint (s : str) : M Z :=
  match s with
  | [] => raise (mkperr None (ParseIntErrorKind (lit "cannot parse integer from empty string")))
  | _ => if forallb is_digit s then ret (Z.of_N (dec_val s))
         else raise (mkperr None (ParseIntErrorKind (lit "invalid digit found in string")))
  end.

(** parse/util.rs:67-70 [frac_from_whole_and_dec]: 10^dec_len is never zero, so
    [BigRational::new] cannot panic; [None] would be that panic. *)
Definition frac_from_whole_and_dec (whole decimal : Z) (dec_len : nat) : option Q :=
  match ratio_new whole 1, ratio_new decimal (10 ^ Z.of_nat dec_len) with
  | Some a, Some b => Some (Qred (Qplus a b))
  | _, _ => None
  end.

(** parser.rs:685-768 [parse_numeric] *)
Definition parse_numeric (line col : N) : M value :=
  let* r := (fun s => let '(x, (r, l, k)) :=
                        scan_numeric (s_rest s) (s_line s) (s_col s) [] [] false false in
                      (Ok x, set_stream s r l k)) in
  match r with
  | NS_bad c => let* '(l, k) := getpos in fail (InvalidValueChar c l k)
  | NS_ok s1 s2 dec =>
      if dec then
        match s1, s2 with
        | [], [] => fail (InvalidNumeric line col)
        | _, _ =>
            let* whole := (match s1 with [] => ret 0%Z | _ => parse_bigint s1 end) in
            let s2 := trim_end_zeros s2 in
            let* '(decimal, dec_len) :=
              (match s2 with
               | [] => ret (0%Z, 1%nat)
               | _ => let* d := parse_bigint s2 in ret (d, List.length s2)
               end) in
            let* f := unwrap (frac_from_whole_and_dec whole decimal dec_len) in
            ret (VFrac f)
        end
      else
        match s1 with
        | [] => fail (InvalidNumeric line col)
        | _ => let* i := parse_bigint s1 in ret (VInt i)
        end
  end.

(** parser.rs:466-471 [FieldType] *)
Inductive field_type := FGlobal | FParent | FRegular.

Section Parser.
Context `{U : Unicode}.

(** parser.rs:491-506, the loop of [parse_field]. *)
Inductive field_scan := FS_ok (f : str) | FS_bad (c : char).
Fixpoint scan_field (r : str) (l k : N) (field : str) (first : bool)
  : field_scan * (str * N * N) :=
  match r with
  | [] => (FS_ok field, (r, l, k))
  | c :: r' =>
      let '(l', k') := adv c l k in
      if (c =? c_colon) && negb first then (FS_ok field, (r', l', k'))
      else if is_valid_field_char c first then scan_field r' l' k' (field ++ [c]) false
      else (FS_bad c, (r', l', k'))
  end.

(** parser.rs:475-526 [parse_field] *)
Definition parse_field (line col : N) : M (str * field_type) :=
  let* ch := peek_unwrap in
  let is_global := ch =? c_at in
  let* field := (if is_global then let* c := next_unwrap in ret [c] else ret []) in
  let* r := (fun s => let '(x, (r, l, k)) :=
                        scan_field (s_rest s) (s_line s) (s_col s) field true in
                      (Ok x, set_stream s r l k)) in
  match r with
  | FS_bad c =>
      let* l := getline in
      let* k := col_minus_1 in
      fail (InvalidFieldChar c l k)
  | FS_ok field =>
      if is_reserved field then fail (InvalidFieldName field line col)
      else if str_eqb field (lit "^") then ret (field, FParent)
      else match field with
           | 94 :: _ => fail (InvalidFieldName field line col)   (* starts_with('^') *)
           | _ => ret (field, if is_global then FGlobal else FRegular)
           end
  end.

(** parser.rs:793-824, the loop of [parse_variable].  [VS_dot] means a '.' was consumed;
    what follows it is examined by the caller. *)
Inductive var_scan := VS_end (v : str) | VS_dot (v : str) | VS_bad (c : char).
Fixpoint scan_var (r : str) (l k : N) (var : str) : var_scan * (str * N * N) :=
  match r with
  | [] => (VS_end var, (r, l, k))
  | c :: r' =>
      let '(l', k') := adv c l k in
      if c =? c_dot then (VS_dot var, (r', l', k'))
      else if is_value_end_char c then (VS_end var, (r, l, k))
      else if is_valid_field_char c false then scan_var r' l' k' (var ++ [c])
      else (VS_bad c, (r, l, k))
  end.

(** ** Operators *)

(** parser.rs:1159-1181 [unary_op_on_value] *)
Definition unary_op_on_value (v : value) (op : unop) (line col : N) : M value :=
  let t := get_type v in
  match op with
  | UPlus =>
      match t with
      | TInt | TFrac => ret v
      | _ => fail (UnaryOperatorError t op line col)
      end
  | UMinus =>
      match t with
      | TInt => let* z := unwrap_o (get_int v) in ret (VInt (- z))
      | TFrac => let* q := unwrap_o (get_frac v) in ret (VFrac (Qopp q))
      | _ => fail (UnaryOperatorError t op line col)
      end
  end.

(** num-rational arithmetic: exact, result in lowest terms. *)
Definition q_add (a b : Q) : Q := Qred (Qplus a b).
Definition q_sub (a b : Q) : Q := Qred (Qminus a b).
Definition q_mul (a b : Q) : Q := Qred (Qmult a b).
Definition q_div (a b : Q) : Q := Qred (Qdiv a b).     (* divisor checked non-zero by the caller *)
Definition q_is_zero (a : Q) : bool := Z.eqb (Qnum a) 0.

(** parser.rs:1184-1315 [binary_op_on_values] *)
Definition binary_op_on_values (val1 val2 : value) (op : binop) (line col : N) : M value :=
  let type1 := get_type val1 in
  let type2 := get_type val2 in
  (* 1196-1203: promote an Int to Frac if the other operand is a Frac *)
  let* '(val1, type1, val2, type2) :=
    (if ty_eqb type1 TInt && ty_eqb type2 TFrac then
       let* z := unwrap_o (get_int val1) in
       let* q := unwrap (ratio_new z 1) in
       ret (VFrac q, TFrac, val2, type2)
     else if ty_eqb type1 TFrac && ty_eqb type2 TInt then
       let* z := unwrap_o (get_int val2) in
       let* q := unwrap (ratio_new z 1) in
       ret (val1, type1, VFrac q, TFrac)
     else ret (val1, type1, val2, type2)) in
  let operr := fail (BinaryOperatorError type1 type2 op line col) in
  match op with
  | BPlus =>
      match type1 with
      | TInt =>
          if ty_eqb type2 TInt then
            let* a := unwrap_o (get_int val1) in
            let* b := unwrap_o (get_int val2) in ret (VInt (a + b))
          else operr
      | TFrac =>
          if ty_eqb type2 TFrac then
            let* a := unwrap_o (get_frac val1) in
            let* b := unwrap_o (get_frac val2) in ret (VFrac (q_add a b))
          else operr
      | TStr =>
          if ty_eqb type2 TStr then
            let* a := unwrap_o (get_str val1) in
            let* b := unwrap_o (get_str val2) in ret (VStr (a ++ b))
          else operr
      | TArr _ =>
          match most_specific type1 type2 with
          | Some (t, _) =>
              let* a := unwrap_o (get_arr val1) in
              let* b := unwrap_o (get_arr val2) in
              match t with
              | TArr t => let* r := new_arr (arr_values a ++ arr_values b) t in ret (VArr r)
              | _ => panic      (* "Logic error" *)
              end
          | None => operr
          end
      | _ => operr
      end
  | BMinus =>
      match type1 with
      | TInt =>
          if ty_eqb type2 TInt then
            let* a := unwrap_o (get_int val1) in
            let* b := unwrap_o (get_int val2) in ret (VInt (a - b))
          else operr
      | TFrac =>
          if ty_eqb type2 TFrac then
            let* a := unwrap_o (get_frac val1) in
            let* b := unwrap_o (get_frac val2) in ret (VFrac (q_sub a b))
          else operr
      | _ => operr
      end
  | BMult =>
      match type1 with
      | TInt =>
          if ty_eqb type2 TInt then
            let* a := unwrap_o (get_int val1) in
            let* b := unwrap_o (get_int val2) in ret (VInt (a * b))
          else operr
      | TFrac =>
          if ty_eqb type2 TFrac then
            let* a := unwrap_o (get_frac val1) in
            let* b := unwrap_o (get_frac val2) in ret (VFrac (q_mul a b))
          else operr
      | _ => operr
      end
  | BDiv =>
      match type1 with
      | TInt =>
          if ty_eqb type2 TInt then
            let* a := unwrap_o (get_int val1) in
            let* b := unwrap_o (get_int val2) in
            if Z.eqb b 0 then fail (InvalidNumeric line col)
            else let* q := unwrap (ratio_new a b) in ret (VFrac q)
          else operr
      | TFrac =>
          if ty_eqb type2 TFrac then
            let* a := unwrap_o (get_frac val1) in
            let* b := unwrap_o (get_frac val2) in
            if q_is_zero b then fail (InvalidNumeric line col)
            else ret (VFrac (q_div a b))
          else operr
      | _ => operr
      end
  | BMod =>
      match type1 with
      | TInt =>
          if ty_eqb type2 TInt then
            let* b := unwrap_o (get_int val2) in
            if Z.eqb b 0 then fail (InvalidNumeric line col)
            else let* a := unwrap_o (get_int val1) in ret (VInt (Z.rem a b))
          else operr
      | _ => operr
      end
  end.

(** parser.rs:1345-1365 [check_value_end] *)
Definition opt_char_eqb (a b : option char) : bool :=
  match a, b with
  | Some x, Some y => x =? y
  | None, None => true
  | _, _ => false
  end.
Definition check_value_end (cur_brace : option char) : M unit :=
  let* o := peek in
  match o with
  | Some c =>
      if is_value_end_char c then
        if is_end_delimiter c && negb (opt_char_eqb (Some c) cur_brace) then
          let* '(l, k) := getpos in fail (InvalidClosingBracket cur_brace c l k)
        else ret tt
      else let* '(l, k) := getpos in fail (InvalidValueChar c l k)
  | None => ret tt
  end.

(** parser.rs:633-643, the final left-to-right evaluation: [vals] and [ops] are popped at the
    front. *)
Fixpoint eval_low_ops (val1 : value) (vals : list (value * N * N)) (ops : list binop) : M value :=
  match ops with
  | [] => ret val1
  | op :: ops' =>
      match vals with
      | [] => panic                                  (* pop_front().unwrap() *)
      | (val2, line2, col2) :: vals' =>
          let* v := binary_op_on_values val1 val2 op line2 col2 in
          eval_low_ops v vals' ops'
      end
  end.

(** [VecDeque::pop_back] on a list with the front first. *)
Definition pop_back {A : Type} (l : list A) : option (list A * A) :=
  match rev l with
  | [] => None
  | x :: r => Some (rev r, x)
  end.

(** [BigInt::to_usize] on a 64-bit target *)
Definition to_usize (z : Z) : option N :=
  if (0 <=? z)%Z && (z <=? 18446744073709551615)%Z then Some (Z.to_N z) else None.

Variable fs : fsys.
(** The parse of an included file of the given kind (parser.rs:1139-1144); instantiated below by
    [load_file]. *)
Variable load_inc : inc_ty -> str -> shared -> outcome value * shared.

(** Run the include handler on the shared state. *)
Definition run_include (ty : inc_ty) (path : str) : M value := fun s =>
  let '(o, sh) := load_inc ty path (s_sh s) in (o, set_sh s sh).

Definition get_globals : M (list (str * value)) := fun s => (Ok (s_globals s), s).
Definition insert_global (f : str) (v : value) : M unit := fun s =>
  (Ok tt, set_globals s ((f, v) :: s_globals s)).
Definition get_sh : M shared := fun s => (Ok (s_sh s), s).
Definition put_sh (sh : shared) : M unit := fun s => (Ok tt, set_sh s sh).

(** parser.rs:1094-1097: whether [parent()] of the current file's path is not [None] *)
Definition has_parent (file : option str) : bool :=
  match file with
  | Some f => match path_parent f with Some _ => true | None => false end
  | None => true
  end.
(** parser.rs:1083-1155: the second half of [parse_include], from the closing '>' on. *)
Definition finish_include (include_type : inc_ty) (include_file : str) (line col : N) : M value :=
  let* file := getfile in
  let* _ := assert_ (has_parent file) in               (* parent().unwrap() *)
  let path := match file with Some f => beside f include_file | None => include_file end in
  if negb (is_file fs path) then fail (InvalidIncludePath include_file line col)
  else
    match canon fs path with
    | None => fail (InvalidIncludePath include_file line col)
    | Some full_path =>
        let* sh := get_sh in
        let* _ := put_sh (log_ev (ETry full_path) sh) in
        (* 1122-1129: remember the current file while it is including *)
        let* storing :=
          (match file with
           | Some f =>
               match canon fs f with
               | None => panic             (* canonicalize().unwrap().to_str().unwrap() *)
               | Some full_file =>
                   let* sh := get_sh in
                   let* _ := put_sh (mksh (sh_vals sh)
                                          (if mem_str full_file (sh_open sh) then sh_open sh
                                           else full_file :: sh_open sh)
                                          (sh_log sh) (sh_g sh)) in
                   ret (Some full_file)
               end
           | None => ret None
           end) in
        let* sh := get_sh in
        if mem_str full_path (sh_open sh) then fail (CyclicInclude include_file line col)
        else
          let* value :=
            (match assoc full_path (sh_vals sh) with
             | Some v => ret v
             | None =>
                 let* v := run_include include_type path in
                 let* sh := get_sh in
                 let* _ := put_sh (mksh ((full_path, v) :: sh_vals sh) (sh_open sh)
                                        (sh_log sh) (sh_g sh)) in
                 ret v
             end) in
          let* sh := get_sh in
          let* _ :=
            (match storing with
             | Some f =>
                 put_sh (mksh (sh_vals sh)
                              (filter (fun x => negb (str_eqb x f)) (sh_open sh))
                              (sh_log sh) (sh_g sh))
             | None => ret tt
             end) in
          let* sh := get_sh in
          let* _ := put_sh (log_ev (EInc full_path include_type value) sh) in
          ret value
    end.

(** parser.rs:1033-1045: which include keyword, if any, the first value inside < > is.
    [inl ty]: a keyword (parse again); [inr tt]: a Str. *)
Definition include_token (v : value) (line col : N) : M (inc_ty + unit) :=
  match v with
  | VObj o =>
      let* s1 := sentinel IObj in
      if obj_ptr_eq o s1 then ret (inl IObj)
      else
        let* s2 := sentinel IStr in
        if obj_ptr_eq o s2 then ret (inl IStr)
        else
          let* s3 := sentinel IArr in
          if obj_ptr_eq o s3 then ret (inl IArr)
          else
            let* s4 := sentinel ITup in
            if obj_ptr_eq o s4 then ret (inl ITup)
            else fail (InvalidIncludeToken (get_type v) line col)
  | VStr _ => ret (inr tt)
  | _ => fail (InvalidIncludeToken (get_type v) line col)
  end.

(** parser.rs:826-858: the value of a variable name. *)
Definition lookup_variable (pairs : list pair_t) (var : str) (is_global : bool) (line col : N)
  : M value :=
  if str_eqb var (lit "null") then ret VNull
  else if str_eqb var (lit "true") then ret (VBool true)
  else if str_eqb var (lit "false") then ret (VBool false)
  else if str_eqb var (lit "Obj") then let* o := sentinel IObj in ret (VObj o)
  else if str_eqb var (lit "Str") then let* o := sentinel IStr in ret (VObj o)
  else if str_eqb var (lit "Arr") then let* o := sentinel IArr in ret (VObj o)
  else if str_eqb var (lit "Tup") then let* o := sentinel ITup in ret (VObj o)
  else if str_eqb var (lit "@") then fail (InvalidValue var line col)
  else if is_global then
    let* g := get_globals in
    match assoc var g with
    | Some v => ret v
    | None => fail (GlobalNotFound var line col)
    end
  else
    match assoc var pairs with
    | Some v => ret v
    | None => fail (VariableNotFound var line col)
    end.

(** parser.rs:876-889 and 905-918: index an Arr or Tup ([get]) by an already parsed value. *)
Definition index_by (get : N -> ores value) (idx : value) (line col : N) : M value :=
  match idx with
  | VInt z =>
      match to_usize z with
      | Some i =>
          match get i with
          | OOk v => ret v
          | OErr e => let* f := getfile in raise (from_over e f line col)
          end
      | None => fail (InvalidIndex z line col)
      end
  | _ => fail (ExpectedType TInt (get_type idx) line col)
  end.

(** parser.rs:529-1156.  [fuel] bounds the recursion depth (calls and loop iterations). *)
Fixpoint parse_value (fuel : nat) (pairs : list pair_t) (line col : N) (depth : N)
  (cur_brace : option char) (is_first : bool) {struct fuel} : M value :=
  match fuel with
  | O => nofuel
  | S n =>
      (* parser.rs:541-585 *)
      let* ch := peek_unwrap in
      let* res :=
        (if ch =? c_quote then parse_str
         else if ch =? c_lbrace then parse_obj n (depth + 1)
         else if ch =? c_lbrack then parse_arr n pairs (depth + 1)
         else if ch =? c_lparen then parse_tup n pairs (depth + 1)
         else if ch =? c_lt then parse_include n pairs (depth + 1)
         else if ch =? c_plus then parse_unary_op n pairs depth cur_brace UPlus
         else if ch =? c_minus then parse_unary_op n pairs depth cur_brace UMinus
         else if is_numeric_char ch then parse_numeric line col
         else if is_valid_field_char ch true || (ch =? c_at) then
           parse_variable n pairs line col depth cur_brace
         else fail (InvalidValueChar ch line col)) in
      (* parser.rs:588-647 *)
      if is_first then
        let* '(vals, ops) := parse_ops n pairs depth cur_brace [(res, line, col)] [] in
        let* _ := check_value_end cur_brace in
        match vals with
        | [] => panic                                 (* val_deque.pop_front().unwrap() *)
        | (val1, _, _) :: vals' => eval_low_ops val1 vals' ops
        end
      else ret res
  end
(** parser.rs:593-627: the operator loop over the two deques. *)
with parse_ops (fuel : nat) (pairs : list pair_t) (depth : N) (cur_brace : option char)
  (vals : list (value * N * N)) (ops : list binop) {struct fuel}
  : M (list (value * N * N) * list binop) :=
  match fuel with
  | O => nofuel
  | S n =>
      let* o := peek in
      match o with
      | None => ret (vals, ops)
      | Some c =>
          match get_op c with
          | None => ret (vals, ops)
          | Some op =>
              let* _ := next in
              let* o2 := peek in
              match o2 with
              | None => let* l := getline in fail (UnexpectedEnd l)
              | Some _ =>
                  let* '(line2, col2) := getpos in
                  let* val2 := parse_value n pairs line2 col2 depth cur_brace false in
                  if is_priority op then
                    match pop_back vals with
                    | None => panic
                    | Some (vals', (val1, line1, col1)) =>
                        let* res := binary_op_on_values val1 val2 op line2 col2 in
                        parse_ops n pairs depth cur_brace (vals' ++ [(res, line1, col1)]) ops
                    end
                  else
                    parse_ops n pairs depth cur_brace (vals ++ [(val2, line2, col2)]) (ops ++ [op])
              end
          end
      end
  end
(** parser.rs:650-682 [parse_unary_op] *)
with parse_unary_op (fuel : nat) (pairs : list pair_t) (depth : N) (cur_brace : option char)
  (op : unop) {struct fuel} : M value :=
  match fuel with
  | O => nofuel
  | S n =>
      let* nx := next in
      let* _ := assert_ (match op with
                         | UMinus => opt_char_eqb nx (Some c_minus)
                         | UPlus => opt_char_eqb nx (Some c_plus)
                         end) in
      let* '(line, col) := getpos in
      let* o := peek in
      match o with
      | None => fail (UnexpectedEnd line)
      | Some _ =>
          let* res := parse_value n pairs line col (depth + 1) cur_brace false in
          unary_op_on_value res op line col
      end
  end
(** parser.rs:87-123 [parse_obj] *)
with parse_obj (fuel : nat) (depth : N) {struct fuel} : M value :=
  match fuel with
  | O => nofuel
  | S n =>
      if MAX_DEPTH <? depth then let* '(l, k) := getpos in fail (MaxDepth l k)
      else
        let* c := next_unwrap in
        let* _ := assert_ (c =? c_lbrace) in
        let* found := find_char in
        if negb found then let* l := getline in fail (UnexpectedEnd l)
        else
          let* '(ps, par) := pairs_loop n [] None depth (Some c_rbrace) in
          let* o := new_obj ps par in
          ret (VObj o)
  end
(** parser.rs:73-81 and 111-119: [while parse_field_value_pair(..)? {}] *)
with pairs_loop (fuel : nat) (ps : list pair_t) (par : option obj) (depth : N)
  (cur_brace : option char) {struct fuel} : M (list pair_t * option obj) :=
  match fuel with
  | O => nofuel
  | S n =>
      let* '(more, ps', par') := parse_field_value_pair n ps par depth cur_brace in
      if (more : bool) then pairs_loop n ps' par' depth cur_brace else ret (ps', par')
  end
(** parser.rs:127-229 [parse_field_value_pair]; the mutable [obj_pairs] and [parent] are returned. *)
with parse_field_value_pair (fuel : nat) (ps : list pair_t) (par : option obj) (depth : N)
  (cur_brace : option char) {struct fuel} : M (bool * list pair_t * option obj) :=
  match fuel with
  | O => nofuel
  | S n =>
      let* pk := peek_unwrap in
      if (pk =? c_rbrace) && (match cur_brace with Some _ => true | None => false end) then
        let* _ := next in ret (false, ps, par)
      else if is_end_delimiter pk then
        let* '(l, k) := getpos in fail (InvalidClosingBracket cur_brace pk l k)
      else
        let* '(field_line, field_col) := getpos in
        let* '(field_name, ftype) := parse_field field_line field_col in
        (* 155-183 *)
        let* _ :=
          (match ftype with
           | FGlobal =>
               let* g := get_globals in
               match assoc field_name g with
               | Some _ => fail (DuplicateGlobal field_name field_line field_col)
               | None => ret tt
               end
           | FParent =>
               match par with
               | Some _ => fail (DuplicateField (lit "^") field_line field_col)
               | None => ret tt
               end
           | FRegular =>
               if existsb (fun p => str_eqb (fst p) field_name) ps
               then fail (DuplicateField field_name field_line field_col)
               else ret tt
           end) in
        let* found := find_char in
        if negb found then let* l := getline in fail (UnexpectedEnd l)
        else
          let* '(value_line, value_col) := getpos in
          let* v := parse_value n ps value_line value_col depth cur_brace true in
          (* 205-218 *)
          let* '(ps', par') :=
            (match ftype with
             | FGlobal => let* _ := insert_global field_name v in ret (ps, par)
             | FParent =>
                 match get_obj v with
                 | OOk o => ret (ps, Some o)
                 | OErr e => let* f := getfile in raise (from_over e f value_line value_col)
                 end
             | FRegular => ret (ps ++ [(field_name, v)], par)
             end) in
          let* found := find_char in
          if negb found then
            match cur_brace with
            | Some _ => let* l := getline in fail (UnexpectedEnd l)
            | None => ret (false, ps', par')
            end
          else ret (true, ps', par')
  end
(** parser.rs:293-372 [parse_arr] *)
with parse_arr (fuel : nat) (pairs : list pair_t) (depth : N) {struct fuel} : M value :=
  match fuel with
  | O => nofuel
  | S n =>
      if MAX_DEPTH <? depth then let* '(l, k) := getpos in fail (MaxDepth l k)
      else
        let* c := next_unwrap in
        let* _ := assert_ (c =? c_lbrack) in
        let* '(vs, t) := arr_loop n pairs depth [] TAny true in
        let* a := new_arr vs t in
        ret (VArr a)
  end
(** parser.rs:313-367, the loop of [parse_arr] *)
with arr_loop (fuel : nat) (pairs : list pair_t) (depth : N) (vs : list value) (tcur : ty)
  (any : bool) {struct fuel} : M (list value * ty) :=
  match fuel with
  | O => nofuel
  | S n =>
      let* found := find_char in
      if negb found then let* l := getline in fail (UnexpectedEnd l)
      else
        let* pk := peek_unwrap in
        if pk =? c_rbrack then let* _ := next in ret (vs, tcur)
        else if is_end_delimiter pk then
          let* '(l, k) := getpos in fail (InvalidClosingBracket (Some c_rbrack) pk l k)
        else
          let* '(value_line, value_col) := getpos in
          let* v := parse_value n pairs value_line value_col depth (Some c_rbrack) true in
          match arr_check_step tcur any (get_type v) with
          | inr (t1, t2) => fail (ExpectedType t1 t2 value_line value_col)
          | inl (t, any') => arr_loop n pairs depth (vs ++ [v]) t any'
          end
  end
(** parser.rs:409-464 [parse_tup] *)
with parse_tup (fuel : nat) (pairs : list pair_t) (depth : N) {struct fuel} : M value :=
  match fuel with
  | O => nofuel
  | S n =>
      if MAX_DEPTH <? depth then let* '(l, k) := getpos in fail (MaxDepth l k)
      else
        let* c := next_unwrap in
        let* _ := assert_ (c =? c_lparen) in
        let* vs := tup_loop n pairs depth [] in
        let* t := new_tup vs in
        ret (VTup t)
  end
(** parser.rs:427-459, the loop of [parse_tup] *)
with tup_loop (fuel : nat) (pairs : list pair_t) (depth : N) (vs : list value) {struct fuel}
  : M (list value) :=
  match fuel with
  | O => nofuel
  | S n =>
      let* found := find_char in
      if negb found then let* l := getline in fail (UnexpectedEnd l)
      else
        let* pk := peek_unwrap in
        if pk =? c_rparen then let* _ := next in ret vs
        else if is_end_delimiter pk then
          let* '(l, k) := getpos in fail (InvalidClosingBracket (Some c_rparen) pk l k)
        else
          let* '(value_line, value_col) := getpos in
          let* v := parse_value n pairs value_line value_col depth (Some c_rparen) true in
          tup_loop n pairs depth (vs ++ [v])
  end
(** parser.rs:771-943 [parse_variable] *)
with parse_variable (fuel : nat) (pairs : list pair_t) (line col : N) (depth : N)
  (cur_brace : option char) {struct fuel} : M value :=
  match fuel with
  | O => nofuel
  | S n =>
      let* ch := peek_unwrap in
      let is_global := ch =? c_at in
      let* var0 := (if is_global then let* c := next_unwrap in ret [c] else ret []) in
      let* r := (fun s => let '(x, (r, l, k)) :=
                            scan_var (s_rest s) (s_line s) (s_col s) var0 in
                          (Ok x, set_stream s r l k)) in
      (* 795-811: what follows a dot *)
      let* '(var, dot, dot_global) :=
        (match r with
         | VS_end v => ret (v, false, false)
         | VS_bad c => let* '(l, k) := getpos in fail (InvalidValueChar c l k)
         | VS_dot v =>
             let* o := peek in
             match o with
             | None => let* l := getline in fail (UnexpectedEnd l)
             | Some c =>
                 if c =? c_at then ret (v, true, true)
                 else if is_valid_field_char c true || is_numeric_char c then ret (v, true, false)
                 else let* '(l, k) := getpos in fail (InvalidValueChar c l k)
             end
         end) in
      let* value := lookup_variable pairs var is_global line col in
      (* 860-940 *)
      if (dot : bool) then
        match value with
        | VArr a =>
            let* '(line, col) := getpos in
            let* idx := parse_value n pairs line col (depth + 1) cur_brace false in
            index_by (arr_get a) idx line col
        | VTup t =>
            let* '(line, col) := getpos in
            let* idx := parse_value n pairs line col (depth + 1) cur_brace false in
            index_by (tup_get t) idx line col
        | VObj o =>
            let* '(line, col) := getpos in
            if (dot_global : bool) then fail (InvalidValueChar c_at line col)
            else parse_variable n (obj_pairs o) line col (depth + 1) cur_brace
        | _ => fail (InvalidDot (get_type value) line col)
        end
      else ret value
  end
(** parser.rs:991-1156 [parse_include] *)
with parse_include (fuel : nat) (pairs : list pair_t) (depth : N) {struct fuel} : M value :=
  match fuel with
  | O => nofuel
  | S n =>
      if MAX_DEPTH <? depth then let* '(l, k) := getpos in fail (MaxDepth l k)
      else
        let* c := next_unwrap in
        let* _ := assert_ (c =? c_lt) in
        let* found := find_char in
        if negb found then let* l := getline in fail (UnexpectedEnd l)
        else
          let* '(line, col) := getpos in
          let* v := parse_value n pairs line col depth (Some c_gt) true in
          let* tok := include_token v line col in
          let* '(include_type, v, line, col) :=
            (match tok with
             | inr _ => ret (IObj, v, line, col)
             | inl ity =>
                 let* found := find_char in
                 if negb found then let* l := getline in fail (UnexpectedEnd l)
                 else
                   let* '(line, col) := getpos in
                   let* v := parse_value n pairs line col depth (Some c_gt) true in
                   ret (ity, v, line, col)
             end) in
          let* found := find_char in
          if negb found then let* l := getline in fail (UnexpectedEnd l)
          else
            let* c := next_unwrap in
            if negb (c =? c_gt) then
              let* l := getline in
              let* k := col_minus_1 in
              fail (InvalidClosingBracket (Some c_gt) c l k)
            else
              match v with
              | VStr include_file => finish_include include_type include_file line col
              | _ => fail (ExpectedType TStr (get_type v) line col)
              end
  end.

(** parser.rs:60-84 [parse_obj_stream] *)
Definition parse_obj_stream (fuel : nat) : M obj :=
  let* found := find_char in
  if negb found then new_obj [] None
  else
    let* '(ps, par) := pairs_loop fuel [] None 1 None in
    new_obj ps par.

(** parser.rs:242-285, the loop of [parse_arr_file] *)
Fixpoint arr_file_loop (fuel : nat) (vs : list value) (tcur : ty) (any : bool) {struct fuel}
  : M (list value * ty) :=
  match fuel with
  | O => nofuel
  | S n =>
      let* found := find_char in
      if negb found then ret (vs, tcur)
      else
        let* '(value_line, value_col) := getpos in
        let* v := parse_value n [] value_line value_col 1 None true in
        match arr_check_step tcur any (get_type v) with
        | inr (t1, t2) => fail (ExpectedType t1 t2 value_line value_col)
        | inl (t, any') => arr_file_loop n (vs ++ [v]) t any'
        end
  end.

(** parser.rs:382-403, the loop of [parse_tup_file] *)
Fixpoint tup_file_loop (fuel : nat) (vs : list value) {struct fuel} : M (list value) :=
  match fuel with
  | O => nofuel
  | S n =>
      let* found := find_char in
      if negb found then ret vs
      else
        let* '(value_line, value_col) := getpos in
        let* v := parse_value n [] value_line value_col 1 None true in
        tup_file_loop n (vs ++ [v])
  end.

(** parser.rs:232-290 and 375-406, after the file has been opened *)
Definition parse_arr_stream (fuel : nat) : M arr :=
  let* '(vs, t) := arr_file_loop fuel [] TAny true in new_arr vs t.
Definition parse_tup_stream (fuel : nat) : M tup :=
  let* vs := tup_file_loop fuel [] in new_tup vs.

End Parser.


(** Recursion budget for a stream of the given length (see the termination theorem). *)
Definition stream_fuel (contents : str) : nat := 4 * List.length contents + 4.

Section Load.
Context `{U : Unicode}.
Variable fs : fsys.

(** [File::open] and [read_to_string] (char_stream.rs:28-37, parse/util.rs:73-81); opening a file
    is recorded in the log.  [From<io::Error> for ParseError], parse/error.rs:190-197. *)
Definition open_file (path : str) (sh : shared) : (str + perr) * shared :=
  match fs_entry fs path with
  | None => (inr (mkperr None (IoErrorKind (fs_open_err fs path))), sh)
  | Some (_, e) =>
      let sh' := log_ev (EOpen (fe_canon e)) sh in
      match fe_read e with
      | inl contents => (inl contents, sh')
      | inr msg => (inr (mkperr None (IoErrorKind msg)), sh')
      end
  end.

(** Run a stream parser on fresh stream and globals (char_stream.rs:43-56 [from_string_impl];
    parser.rs:69, 236, 380: each file has its own globals). *)
Definition run_stream {A : Type} (p : M A) (file : option str) (contents : str) (sh : shared)
  : outcome A * shared :=
  let '(o, s) := p (mkst file contents 1 1 [] sh) in (o, s_sh s).

Definition omap {A B} (f : A -> B) (o : outcome A) : outcome B :=
  match o with
  | Ok a => Ok (f a)
  | Err e => Err e
  | Panic => Panic
  | NoFuel => NoFuel
  end.

(** Instrument: log the end of a successful parse of the file at [path]. *)
Definition done_file {A : Type} (path : str) (r : outcome A * shared) : outcome A * shared :=
  match r with
  | (Ok a, sh) =>
      (Ok a, log_ev (EDone (canon fs path)) sh)
  | _ => r
  end.

(** parser.rs:46-50 [parse_obj_file_includes], 232-290 [parse_arr_file], 375-406
    [parse_tup_file], 945-949 [parse_str_file].  [k] bounds the depth of nested includes. *)
Fixpoint load_file (k : nat) (ty : inc_ty) (path : str) (sh : shared) {struct k}
  : outcome value * shared :=
  match k with
  | O => (NoFuel, sh)
  | S k' =>
      match open_file path sh with
      | (inr e, sh) => (Err e, sh)
      | (inl contents, sh) =>
          let fuel := stream_fuel contents in
          done_file path
          match ty with
          | IStr => (Ok (VStr contents), sh)
          | IObj =>
              let '(o, sh) :=
                run_stream (parse_obj_stream fs (load_file k') fuel) (Some path) contents sh in
              (omap VObj o, sh)
          | IArr =>
              let '(o, sh) :=
                run_stream (parse_arr_stream fs (load_file k') fuel) (Some path) contents sh in
              (omap VArr o, sh)
          | ITup =>
              let '(o, sh) :=
                run_stream (parse_tup_stream fs (load_file k') fuel) (Some path) contents sh in
              (omap VTup o, sh)
          end
      end
  end.

Definition init_sh (g : gstate) : shared := mksh [] [] [] g.
Definition inc_fuel : nat := S (List.length (fs_files fs)).

(** parser.rs:53-57 [parse_obj_str] (mod.rs:24-26 [load_from_str]), on a process in state [g]. *)
Definition parse_obj_str (g : gstate) (contents : str) : outcome obj * shared :=
  run_stream (parse_obj_stream fs (load_file inc_fuel) (stream_fuel contents)) None contents
             (init_sh g).

(** parser.rs:41-44 [parse_obj_file] (mod.rs:19-21 [load_from_file]) *)
Definition parse_obj_file (g : gstate) (path : str) : outcome obj * shared :=
  match open_file path (init_sh g) with
  | (inr e, sh) => (Err e, sh)
  | (inl contents, sh) =>
      run_stream (parse_obj_stream fs (load_file inc_fuel) (stream_fuel contents)) (Some path)
                 contents sh
  end.

(** The public API: obj.rs:325-327 [Obj::from_str], obj.rs:146-148 [Obj::from_file].
    [None] stands for a panic or exhausted fuel (both proved impossible). *)
Definition to_ores {A : Type} (o : outcome A) : option (ores A) :=
  match o with
  | Ok a => Some (OOk a)
  | Err e => Some (OErr (over_from_parse e))
  | Panic | NoFuel => None
  end.
Definition from_str (g : gstate) (contents : str) : option (ores obj) :=
  to_ores (fst (parse_obj_str g contents)).
Definition from_file (g : gstate) (path : str) : option (ores obj) :=
  to_ores (fst (parse_obj_file g path)).
End Load.

(** A process that has not created anything yet. *)
Definition g0 : gstate := mkg 0 None None None None [] [].
(** No files at all. *)
Definition no_fs : fsys := mkfs (fun _ => None) [] (fun _ => []).

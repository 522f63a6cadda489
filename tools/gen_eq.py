#!/usr/bin/env python3
"""Generates rocq/theories/ParserEq.v: the one-step unfolding equations of the mutual fixpoint of
Parser.v (each proved by reflexivity), by copying the function bodies."""
import re, os
root = os.path.dirname(os.path.dirname(os.path.abspath(__file__)))
src = open(root + '/rocq/theories/Parser.v').read()
names = "parse_value parse_ops parse_unary_op parse_obj pairs_loop parse_field_value_pair parse_arr arr_loop parse_tup tup_loop parse_variable parse_include".split()
i = src.index("Fixpoint parse_value"); j = src.index("(** parser.rs:60-84 [parse_obj_stream] *)")
allnames = list(names)
blk = src[i:j]
out = ['''(** * ParserEq: GENERATED by tools/gen_eq.py from Parser.v; do not edit.

    One-step unfolding equations of the mutually recursive parser functions. *)
From Verif Require Export Parser.
From Coq Require Import String.
Open Scope N_scope.

Section Eq.
Context `{U : Unicode}.
Variable fs : fsys.
Variable load_inc : inc_ty -> str -> shared -> outcome value * shared.
''']
for m in re.finditer(r'(?:Fixpoint|^with) (\w+) \(fuel : nat\)\s*(.*?)\{struct fuel\}\s*:\s*M (.*?):=\s*match fuel with\s*\| O => nofuel\s*\| S n =>(.*?)\n  end(?=\n|\.\n)', blk, re.S | re.M):
    f, args, ty, body = m.groups()
    assert f in names
    an = []
    for a in re.findall(r'\(([^():]*?) :', args):
        an += a.split()
    body = re.sub(r'\(\*\*.*?\*\)', '', body, flags=re.S)
    body = re.sub(r'\b(' + '|'.join(allnames) + r') n\b', r'\1 fs load_inc n', body)
    body = body.replace('finish_include include_type', 'finish_include fs load_inc include_type')
    out.append('Lemma %s_S n %s :\n  %s fs load_inc (S n) %s =%s.\nProof. reflexivity. Qed.\n' % (f, args.strip(), f, ' '.join(an), body))
    names.remove(f)
assert not names, names
out.append('End Eq.\n')
open(root + '/rocq/theories/ParserEq.v', 'w').write('\n'.join(out))

# ---- Stack.v: the same functions with a bounded call stack ----
frames = "parse_value parse_unary_op parse_obj parse_field_value_pair parse_arr parse_tup parse_variable parse_include".split()
head = '''(** * Stack: GENERATED by tools/gen_eq.py from Parser.v; do not edit.

    The mutually recursive functions of parser.rs once more, on a machine with a bounded call stack: [st] is
    the number of frames that are left.  Every call of one of the Rust functions that can call one another
    (parse_value, parse_unary_op, parse_obj, parse_field_value_pair, parse_arr, parse_tup, parse_variable,
    parse_include, and for included files parse_*_file and parse_obj_stream) needs a frame and gives it back
    when it returns; the loops inside these functions need none; a call without a frame left ends the process
    ([Panic]; in Rust: stack overflow).  The recursive functions on types (Clone, ==, has_any and most_specific,
    src/types.rs) need one frame for every level of the type they are called on ([spare]): get_type copies the
    type of an Arr or Tup, and the parser calls it on operands, on the elements of an Arr or Tup and for error
    messages.  The bodies are those of Parser.v, character by character, except for [frame], [spare] and the
    argument [st].  Not counted: functions that do not recurse, and destructors. *)
From Verif Require Export Parser Levels.
From Coq Require Import String.
Open Scope N_scope.

(** Call a function that needs a frame. *)
Definition frame {A : Type} (st : N) (body : N -> M A) : M A :=
  if st =? 0 then panic else body (st - 1).
(** Call a recursive function on a type of [n] levels: [n] frames, given back at once. *)
Definition spare (st : N) (n : N) : M unit := if n <=? st then ret tt else panic.

Section Stack.
Context `{U : Unicode}.
(** parser.rs:1168 *)
Definition st_unary_op_on_value (st : N) (v : value) (op : unop) (line col : N) : M value :=
  let* _ := spare st (levels v) in unary_op_on_value v op line col.
(** parser.rs:1194 *)
Definition st_binary_op_on_values (st : N) (val1 val2 : value) (op : binop) (line col : N) : M value :=
  let* _ := spare st (levels val1) in
  let* _ := spare st (levels val2) in
  binary_op_on_values val1 val2 op line col.
(** parser.rs:1040-1043 (the type is needed for the error only; an Obj and a Str have no levels) *)
Definition st_include_token (st : N) (v : value) (line col : N) : M (inc_ty + unit) :=
  let* _ := spare st (levels v) in include_token v line col.
(** parser.rs:883-888 and 912-917 (the type is needed for the error only; an Int has no levels) *)
Definition st_index_by (st : N) (get : N -> ores value) (idx : value) (line col : N) : M value :=
  let* _ := spare st (levels idx) in index_by get idx line col.
(** src/tup.rs:33: the types of all elements are copied *)
Definition st_new_tup (st : N) (vs : list value) : M tup :=
  let* _ := spare st (levels_all vs) in new_tup vs.
Variable fs : fsys.
(** The parse of an included file, with the frames that are left. *)
Variable load_inc : N -> inc_ty -> str -> shared -> outcome value * shared.
'''
names = list(allnames)
k2 = src.index("(** parser.rs:232-290 and 375-406, after the file has been opened *)")
blk2 = src[i:k2]
defs = blk2; eqs = []
loopfix = ['arr_file_loop', 'tup_file_loop']
pat = re.compile(r'((?:Fixpoint|^with) )(\w+)( \(fuel : nat\)\s*)(.*?)(\{struct fuel\}\s*:\s*M (?:.*?):=\s*match fuel with\s*\| O => nofuel\s*\| S n =>)(.*?)(\n  end)(?=\n|\.\n)', re.S | re.M)
GUARDS = [('match arr_check_step tcur any (get_type v) with', 'let* _ := spare st (levels v) in\n          match arr_check_step tcur any (get_type v) with'),
          ('| _ => fail (ExpectedType TStr (get_type v) line col)', '| _ => let* _ := spare st (levels v) in fail (ExpectedType TStr (get_type v) line col)'),
          ('match get_obj v with', 'let* _ := spare st (levels v) in\n                 match get_obj v with')]
seen = [0, 0, 0]
def guards(body):
    for q, (x, y) in enumerate(GUARDS):
        seen[q] += body.count(x); body = body.replace(x, y)
    return body
LEAVES = 'unary_op_on_value|binary_op_on_values|include_token|index_by|new_tup|eval_low_ops'
def fix(m):
    a, f, b, args, c, body, e = m.groups()
    body = guards(body)
    body = re.sub(r'\b(' + LEAVES + r')\b', r'st_\1 st', body)
    body = re.sub(r'\b(' + '|'.join(allnames + loopfix) + r') n\b', r'st_\1 n st', body)
    body = body.replace('finish_include include_type', 'finish_include fs (load_inc st) include_type')
    if f in frames: body = ' frame st (fun st =>' + body + ')'
    an = []
    for x in re.findall(r'\(([^():]*?) :', args): an += x.split()
    b2 = re.sub(r'\(\*\*.*?\*\)', '', body, flags=re.S)
    eqs.append((f, args.strip(), an, b2))
    return a + 'st_' + f + b + '(st : N) ' + args + c + body + e
defs = pat.sub(fix, blk2)
defs = re.sub(r'\(\*\* parser.rs:60-84 \[parse_obj_stream\].*?(?=\(\*\* parser.rs:242)', '''(** parser.rs:60-84 [parse_obj_stream] *)
Definition st_parse_obj_stream (fuel : nat) (st : N) : M obj := frame st (fun st =>
  let* found := find_char in
  if negb found then new_obj [] None
  else
    let* '(ps, par) := st_pairs_loop fuel st [] None 1 None in
    new_obj ps par).

''', defs, flags=re.S)
assert seen == [2, 1, 1], seen
a = src.index('(** parser.rs:633-643, the final'); b = src.index('(** [VecDeque::pop_back]')
ev = src[a:b].replace('Fixpoint eval_low_ops (', 'Fixpoint st_eval_low_ops (st : N) (').replace('binary_op_on_values', 'st_binary_op_on_values st').replace('eval_low_ops v', 'st_eval_low_ops st v')
var = '\nVariable fs : fsys.'
o2 = [head.replace(var, '\n' + ev + var[1:]), defs]
assert ev in o2[0]
for f, args, an, body in eqs:
    o2.append('Lemma st_%s_S n st %s :\n  st_%s (S n) st %s =%s.\nProof. reflexivity. Qed.\n' % (f, args, f, ' '.join(an), body))
o2.append('''(** parser.rs:232-290 and 375-406, after the file has been opened *)
Definition st_parse_arr_stream (fuel : nat) (st : N) : M arr :=
  let* '(vs, t) := st_arr_file_loop fuel st [] TAny true in new_arr vs t.
Definition st_parse_tup_stream (fuel : nat) (st : N) : M tup :=
  let* vs := st_tup_file_loop fuel st [] in st_new_tup st vs.
End Stack.

Section StackLoad.
Context `{U : Unicode}.
Variable fs : fsys.
(** As [load_file]; parse_obj_file_includes, parse_arr_file, parse_tup_file and parse_str_file need a frame. *)
Fixpoint st_load_file (k : nat) (st : N) (ty : inc_ty) (path : str) (sh : shared) {struct k}
  : outcome value * shared :=
  match k with
  | O => (NoFuel, sh)
  | S k' =>
      if st =? 0 then (Panic, sh)
      else
        match open_file fs path sh with
        | (inr e, sh) => (Err e, sh)
        | (inl contents, sh) =>
            let fuel := stream_fuel contents in
            done_file fs path
            match ty with
            | IStr => (Ok (VStr contents), sh)
            | IObj =>
                let '(o, sh) :=
                  run_stream (st_parse_obj_stream fs (st_load_file k') fuel (st - 1)) (Some path) contents sh in
                (omap VObj o, sh)
            | IArr =>
                let '(o, sh) :=
                  run_stream (st_parse_arr_stream fs (st_load_file k') fuel (st - 1)) (Some path) contents sh in
                (omap VArr o, sh)
            | ITup =>
                let '(o, sh) :=
                  run_stream (st_parse_tup_stream fs (st_load_file k') fuel (st - 1)) (Some path) contents sh in
                (omap VTup o, sh)
            end
        end
  end.
(** [Obj::from_str] and [Obj::from_file] on a stack of [st] frames; [None]: the process died. *)
Definition from_str_within (st : N) (g : gstate) (contents : str) : option (ores obj) :=
  to_ores (fst (run_stream (st_parse_obj_stream fs (st_load_file (inc_fuel fs)) (stream_fuel contents) st)
                           None contents (init_sh g))).
Definition from_file_within (st : N) (g : gstate) (path : str) : option (ores obj) :=
  to_ores (fst (match open_file fs path (init_sh g) with
                | (inr e, sh) => (Err e, sh)
                | (inl contents, sh) =>
                    run_stream (st_parse_obj_stream fs (st_load_file (inc_fuel fs)) (stream_fuel contents) st)
                               (Some path) contents sh
                end)).
End StackLoad.
''')
open(root + '/rocq/theories/Stack.v', 'w').write('\n'.join(o2))

# ---- Count.v: the same functions, counting their calls and loop iterations ----
head = '''(** * Count: GENERATED by tools/gen_eq.py from Parser.v; do not edit.

    The parser once more, with a meter: every call of parse_value, parse_unary_op, parse_obj,
    parse_field_value_pair, parse_arr, parse_tup, parse_variable, parse_include, parse_obj_stream, parse_*_file
    and every turn of the loops inside these functions (fields of an Obj, elements of an Arr or Tup, binary
    operators, the final left-to-right evaluation) adds one [tick]; every file that is opened is noted by its
    number in the file system; every character taken from a stream adds one; and the meter keeps the largest
    number of levels of a type on which get_type was called ([c_spare], at the same places as [spare] in Stack.v).
    The bodies are those of Parser.v, character by character, except for the names, [tick] and [c_spare].  Not counted: arithmetic, look-ups in maps, copying
    of values, looking at the next character without taking it. *)
From Verif Require Export Parser Levels.
From Coq Require Import String.
Open Scope N_scope.

(** ticks and characters; the numbers of the files that were opened; the tallest type *)
Record meter := mkm { m_ticks : N; m_reads : list nat; m_tall : N }.
Definition m_add (a b : meter) : meter :=
  mkm (m_ticks a + m_ticks b) (m_reads a ++ m_reads b) (N.max (m_tall a) (m_tall b)).
Definition Mt (A : Type) := pstate -> (outcome A * pstate) * meter.
(** a leaf function costs the characters that it takes from the stream *)
Definition lift {A : Type} (m : M A) : Mt A := fun s =>
  let r := m s in (r, mkm (N.of_nat (List.length (s_rest s)) - N.of_nat (List.length (s_rest (snd r)))) [] 0).
Definition tick {A : Type} (m : Mt A) : Mt A := fun s => let '(r, u) := m s in (r, m_add (mkm 1 [] 0) u).
(** get_type copies a type of [n] levels *)
Definition c_spare (n : N) : Mt unit := fun s => (Ok tt, s, mkm 0 [] n).
Definition cbind {A B : Type} (m : Mt A) (f : A -> Mt B) : Mt B := fun s =>
  match m s with
  | (Ok a, s', u) => let '(r, u') := f a s' in (r, m_add u u')
  | (Err e, s', u) => (Err e, s', u)
  | (Panic, s', u) => (Panic, s', u)
  | (NoFuel, s', u) => (NoFuel, s', u)
  end.
Notation "'let+' x ':=' m 'in' k" := (cbind m (fun x => k))
  (at level 200, x name, m at level 100, k at level 200, right associativity).
Notation "'let+' ' p ':=' m 'in' k" := (cbind m (fun x => match x with p => k end))
  (at level 200, p strict pattern, m at level 100, k at level 200, right associativity).

Section Count.
Context `{U : Unicode}.
'''
leaf0 = "peek_unwrap next_unwrap peek next find_char getpos getline getfile col_minus_1 get_globals get_sh panic nofuel parse_str".split()
leaf1 = "ret fail raise assert_ insert_global put_sh check_value_end unwrap_o unwrap".split()
leafn = {'new_obj': 2, 'new_arr': 2, 'new_tup': 1, 'parse_numeric': 2, 'parse_field': 2, 'lookup_variable': 5, 'index_by': 4, 'include_token': 3,
         'unary_op_on_value': 4, 'binary_op_on_values': 5}
SP = {'unary_op_on_value': ['levels a'], 'binary_op_on_values': ['levels a', 'levels b'], 'include_token': ['levels a'],
      'index_by': ['levels b'], 'new_tup': ['levels_all a']}
out3 = [head]
for f in leaf0: out3.append('Definition c_%s%s := lift %s.' % (f, ' {A : Type} : Mt A' if f in ('panic', 'nofuel') else '', f))
for f in leaf1:
    if f in ('ret',): out3.append('Definition c_ret {A : Type} (a : A) : Mt A := lift (ret a).')
    elif f in ('fail', 'raise'): out3.append('Definition c_%s {A : Type} k : Mt A := lift (%s k).' % (f, f))
    elif f.startswith('unwrap'): pass
    elif f == 'insert_global': out3.append('Definition c_insert_global a b := lift (insert_global a b).')
    else: out3.append('Definition c_%s a := lift (%s a).' % (f, f))
for f, k in leafn.items():
    vs = ' '.join('abcdefg'[:k])
    if f in SP: out3.append('Definition c_%s %s := %slift (%s %s).' % (f, vs, ''.join('let+ _ := c_spare (%s) in ' % x for x in SP[f]), f, vs))
    else: out3.append('Definition c_%s %s := lift (%s %s).' % (f, vs, f, vs))
out3.append('')
leaves = leaf0 + leaf1 + list(leafn)
def conv(b):
    # keep comments untouched
    parts = re.split(r'(\(\*.*?\*\))', b, flags=re.S)
    for q in range(0, len(parts), 2):
        p = parts[q].replace('let*', 'let+')
        p = re.sub(r"\(fun s => let '\(x", "lift (fun s => let '(x", p)
        p = re.sub(r'\b(' + '|'.join(leaves) + r')\b', r'c_\1', p)
        p = re.sub(r'\b(' + '|'.join(allnames + loopfix) + r') n\b', r'ct_\1 n', p)
        p = re.sub(r'\b(finish_include|run_include|eval_low_ops)\b', r'ct_\1', p)
        p = re.sub(r': M\b', ': Mt', p)
        parts[q] = p
    return ''.join(parts)
a = src.index('(** parser.rs:633-643, the final'); b = src.index('(** [VecDeque::pop_back]')
ev = conv(src[a:b]).replace('| op :: ops\' =>\n      match vals', '| op :: ops\' => tick\n      match vals')
assert 'tick' in ev
out3.append(ev)
out3.append('''Variable fs : fsys.
(** The metered parse of an included file. *)
Variable load_inc : inc_ty -> str -> shared -> (outcome value * shared) * meter.
Definition ct_run_include (ty : inc_ty) (path : str) : Mt value := fun s =>
  let '(o, sh, u) := load_inc ty path (s_sh s) in (o, set_sh s sh, u).
''')
a = src.index("(** parser.rs:1083-1155: the second half"); b = src.index("(** parser.rs:1033-1045: which include keyword")
out3.append(conv(src[a:b]).replace('mem_str', 'mem_str'))
eqs = []
def fix3(m):
    a, f, b, args, c, body, e = m.groups()
    body = ' tick (' + conv(guards(body).replace('spare st', 'c_spare')) + ')'
    an = []
    for x in re.findall(r'\(([^():]*?) :', args): an += x.split()
    b2 = re.sub(r'\(\*\*.*?\*\)', '', body, flags=re.S)
    eqs.append((f, args.strip(), an, b2))
    return a + 'ct_' + f + b + args + conv(c) + body + e
defs = pat.sub(fix3, blk2)
defs = re.sub(r'\(\*\* parser.rs:60-84 \[parse_obj_stream\].*?(?=\(\*\* parser.rs:242)', '''(** parser.rs:60-84 [parse_obj_stream] *)
Definition ct_parse_obj_stream (fuel : nat) : Mt obj := tick (
  let+ found := c_find_char in
  if negb found then c_new_obj [] None
  else
    let+ '(ps, par) := ct_pairs_loop fuel [] None 1 None in
    c_new_obj ps par).

''', defs, flags=re.S)
out3.append(defs)
for f, args, an, body in eqs:
    out3.append('Lemma ct_%s_S n %s :\n  ct_%s (S n) %s =%s.\nProof. reflexivity. Qed.\n' % (f, args, f, ' '.join(an), body))
out3.append('''(** parser.rs:232-290 and 375-406, after the file has been opened *)
Definition ct_parse_arr_stream (fuel : nat) : Mt arr :=
  let+ '(vs, t) := ct_arr_file_loop fuel [] TAny true in c_new_arr vs t.
Definition ct_parse_tup_stream (fuel : nat) : Mt tup :=
  let+ vs := ct_tup_file_loop fuel [] in c_new_tup vs.
End Count.

Section CountLoad.
Context `{U : Unicode}.
Variable fs : fsys.
Definition ct_run_stream {A : Type} (p : Mt A) (file : option str) (contents : str) (sh : shared)
  : (outcome A * shared) * meter :=
  let '(o, s, u) := p (mkst file contents 1 1 [] sh) in (o, s_sh s, u).
(** one call, and the file that is opened *)
Definition opening (path : str) : meter :=
  mkm 1 (match fs_entry fs path with Some (i, _) => [i] | None => [] end) 0.
(** As [load_file]. *)
Fixpoint ct_load_file (k : nat) (ty : inc_ty) (path : str) (sh : shared) {struct k}
  : (outcome value * shared) * meter :=
  match k with
  | O => (NoFuel, sh, mkm 0 [] 0)
  | S k' =>
      match open_file fs path sh with
      | (inr e, sh) => (Err e, sh, opening path)
      | (inl contents, sh) =>
          let fuel := stream_fuel contents in
          let '(r, u) :=
            match ty with
            | IStr => (Ok (VStr contents), sh, mkm 0 [] 0)
            | IObj =>
                let '(o, sh, u) :=
                  ct_run_stream (ct_parse_obj_stream fs (ct_load_file k') fuel) (Some path) contents sh in
                (omap VObj o, sh, u)
            | IArr =>
                let '(o, sh, u) :=
                  ct_run_stream (ct_parse_arr_stream fs (ct_load_file k') fuel) (Some path) contents sh in
                (omap VArr o, sh, u)
            | ITup =>
                let '(o, sh, u) :=
                  ct_run_stream (ct_parse_tup_stream fs (ct_load_file k') fuel) (Some path) contents sh in
                (omap VTup o, sh, u)
            end in
          (done_file fs path r, m_add (opening path) u)
      end
  end.
(** [parse_obj_str] and [parse_obj_file] with the meter. *)
Definition metered_str (g : gstate) (contents : str) : (outcome obj * shared) * meter :=
  ct_run_stream (ct_parse_obj_stream fs (ct_load_file (inc_fuel fs)) (stream_fuel contents)) None contents
                (init_sh g).
Definition metered_file (g : gstate) (path : str) : (outcome obj * shared) * meter :=
  match open_file fs path (init_sh g) with
  | (inr e, sh) => (Err e, sh, opening path)
  | (inl contents, sh) =>
      let '(r, u) := ct_run_stream (ct_parse_obj_stream fs (ct_load_file (inc_fuel fs)) (stream_fuel contents))
                                   (Some path) contents sh in
      (r, m_add (opening path) u)
  end.
End CountLoad.
''')
open(root + '/rocq/theories/Count.v', 'w').write('\n'.join(out3))

# ---- AnyInc.v: the same functions with any second half of [parse_include] ----
import re as _re
lines = src.split('\n')
a = next(i for i, l in enumerate(lines) if l.startswith('Fixpoint parse_value'))
b = next(i for i, l in enumerate(lines) if l.startswith('End Parser.'))
body = '\n'.join(lines[a:b])
top = "parse_value parse_ops parse_unary_op parse_obj pairs_loop parse_field_value_pair parse_arr arr_loop parse_tup tup_loop parse_variable parse_include".split()
for nm in top + "parse_obj_stream arr_file_loop tup_file_loop parse_arr_stream parse_tup_stream".split():
    body = _re.sub(r'(?<![\w\[])' + nm + r'\b(?!\])', 'am_' + nm, body)
body = body.replace('finish_include include_type', 'fin include_type')
out4 = ["""(** * AnyInc: GENERATED by tools/gen_eq.py from Parser.v; do not edit.

    The functions of Parser.v (parser.rs:60-1156), word for word, except that the second half of [parse_include], [fin], is a
    parameter. *)
From Verif Require Export Parser.
From Coq Require String.
Import String.StringSyntax.
Open Scope N_scope.

Section Any.
Context `{U : Unicode}.
Variable fin : inc_ty -> str -> N -> N -> M value.

(** parser.rs:529-1156.  [fuel] bounds the recursion depth (calls and loop iterations). *)""", body, 'End Any.\n', 'Section AnyEq.\nContext `{U : Unicode}.\nVariable fin : inc_ty -> str -> N -> N -> M value.\n']
blk4 = body[:body.index('Definition am_parse_obj_stream')]
todo = ['am_' + n for n in top]
for m in _re.finditer(r'(?:Fixpoint|^with) (\w+) \(fuel : nat\)\s*(.*?)\{struct fuel\}\s*:\s*M (.*?):=\s*match fuel with\s*\| O => nofuel\s*\| S n =>(.*?)\n  end(?=\n|\.\n)', blk4, _re.S | _re.M):
    f, args, ty, bd = m.groups()
    an = []
    for x in _re.findall(r'\(([^():]*?) :', args): an += x.split()
    bd = _re.sub(r'\(\*\*.*?\*\)', '', bd, flags=_re.S)
    bd = _re.sub(r'\b(' + '|'.join('am_' + n for n in top) + r') n\b', r'\1 fin n', bd)
    out4.append('Lemma %s_S n %s :\n  %s fin (S n) %s =%s.\nProof. reflexivity. Qed.\n' % (f, args.strip(), f, ' '.join(an), bd))
    todo.remove(f)
assert not todo, todo
out4.append('End AnyEq.\n')
open(root + '/rocq/theories/AnyInc.v', 'w').write('\n'.join(out4))

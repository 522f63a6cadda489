#!/usr/bin/env python3
"""Conformance test of the Rocq model against the expectations in /repo/tests/errors.rs.

Generates a throw-away Coq file that runs the model's [from_file] on every file of
/repo/tests/test_files (vm_compute) and compares the error text with the one errors.rs expects;
files that are not mentioned there must load.  Nothing here is part of the proofs.
Usage: conformance.py [/verif/rocq]
"""
import os, re, subprocess, sys, posixpath
root = sys.argv[1] if len(sys.argv) > 1 else '/verif/rocq'
base = '/repo'
files = []
for d, _, fs in os.walk(base + '/tests/test_files'):
    for f in fs:
        files.append(os.path.relpath(os.path.join(d, f), base))
files.sort()
def nl(s): return '[' + ';'.join(str(ord(c)) for c in s) + ']'
# paths that can be resolved: tests/test_files/... relative spellings
paths = {}
for i, f in enumerate(files): paths[f] = i
extra = {}
for f in files:
    txt = open(base + '/' + f, newline='').read()
    for m in re.finditer(r'"([^"\n]*)"', txt):
        p = posixpath.join(posixpath.dirname(f), m.group(1))
        n = posixpath.normpath(p)
        if n in paths: extra[p] = paths[n]
        # concatenated path pieces
    pieces = [m.group(1) for m in re.finditer(r'"([^"\n]*)"', txt)]
    for a in pieces:
        for b in pieces:
            p = posixpath.join(posixpath.dirname(f), a + b); n = posixpath.normpath(p)
            if n in paths: extra[p] = paths[n]
paths.update(extra)
src = open(base + '/tests/errors.rs').read()
src = src[src.index('error_helper!(\n        "any1'):]
exp = {}
def unesc(s):
    s = re.sub(r'\\\n\s*', '', s)
    return s.replace("\\'", "'").replace('\\"', '"').replace('\\\\', '\x00').replace('\\n', '\n').replace('\\r', '\r').replace('\x00', '\\')
for m in re.finditer(r'error_helper!\(((?:\s*"(?:[^"\\]|\\.|\\\n)*",?)+)\s*\);', src, re.S):
    args = re.findall(r'"((?:[^"\\]|\\.|\\\n)*)"', m.group(1), re.S)
    exp['tests/test_files/errors/' + args[0]] = [unesc(a) for a in args[1:]]
out = []
out.append('From Verif Require Import Parser Format.\nFrom Coq Require Import String.\n')
out.append("""#[local] Instance U0 : Unicode := {| u_alpha := fun c => negb (N.eqb c 8364);
  u_debug := fun c => if N.eqb c 10 then [39;92;110;39] else if N.eqb c 13 then [39;92;114;39]
    else if N.eqb c 34 then [39;92;34;39] else [39;c;39] |}.
Definition dirname (f : str) : str :=
  let fix go (l : str) := match l with [] => [] | c :: l' => if N.eqb c 47 then l else go l' end in
  rev (go (rev f)).
""")
out.append('Definition ents : list fentry := [%s].\n' % ';\n'.join('mkfe (Some %s) (inl %s)' % (nl('/' + f), nl(open(base + '/' + f, newline='').read())) for f in files))
out.append('Definition pths : list (str * nat) := [%s].\n' % ';\n'.join('(%s, %d%%nat)' % (nl(p), i) for p, i in paths.items()))
out.append('Definition tfs := mkfs (fun f p => dirname f ++ p) (fun p => assoc p pths) ents (fun _ => []).\n')
out.append('''Definition show (r : option (ores obj)) : bool * str := match r with None => (false, lit "PANIC") | Some (OOk o) =>
  match write_to_string o with None => (false, lit "FMT") | Some t =>
   match from_str tfs g0 t with Some (OOk o') => if obj_eqb o o' then (true, []) else (false, lit "RT") | _ => (false, lit "RTERR") end end
  | Some (OErr e) => (false, over_error_show e) end.
''')
ts = [f for f in files if f.endswith('.over')]
for f in ts:
    out.append('Eval vm_compute in show (from_file tfs g0 %s).\n' % nl(f))
os.makedirs('/tmp/conf', exist_ok=True)
open('/tmp/conf/Conf.v', 'w').write(''.join(out))
r = subprocess.run(['coqc', '-Q', root + '/theories', 'Verif', '/tmp/conf/Conf.v'], capture_output=True, text=True)
if r.returncode: print(r.stderr[-3000:]); sys.exit(1)
res = re.findall(r'=\s*\((true|false),\s*\[?([\d;\s]*)', r.stdout)
assert len(res) == len(ts), (len(res), len(ts))
bad = 0; good = 0
for f, (ok, txt) in zip(ts, res):
    t = ''.join(chr(int(x)) for x in re.findall(r'\d+', txt))
    if f in exp:
        cand = [f + ': ' + e for e in exp[f]]
        # errors.rs compares Debug-formatted chars; our oracle already produces the escapes
        if ok == 'false' and any(t == c or t == c.replace('\n', '\\n').replace('\r', '\\r') for c in cand): good += 1
        else: bad += 1; print('MISMATCH', f, repr(t), cand)
    else:
        if ok == 'true' and not f.startswith('tests/test_files/errors/'): good += 1
        else: print('NOTE', f, ok, repr(t))
print(good, 'agree,', bad, 'disagree,', len(exp), 'expected errors')

#!/usr/bin/env python3
"""Which definitions of the model are not mentioned, directly or through other definitions, in the statement of any
manifest theorem?  (Text-based: a mutant of such a definition cannot be detected.)"""
import re, glob, os, collections
d = os.path.join(os.path.dirname(os.path.dirname(os.path.abspath(__file__))), 'rocq', 'theories')
def strip(s):
    out, n, i, q = [], 0, 0, False
    while i < len(s):
        if n == 0 and s[i] == '"': q = not q
        if not q and s.startswith('(*', i): n += 1; i += 2; continue
        if not q and n and s.startswith('*)', i): n -= 1; i += 2; continue
        if n == 0: out.append(s[i])
        i += 1
    return ''.join(out)
HEAD = re.compile(r'^\s*(?:Local |Global |#\[\w+\] )?(Theorem|Lemma|Corollary|Example|Definition|Fixpoint|Inductive|CoInductive|Record|Class|Instance|Notation)\s+([\w\']+|"[^"]*")', re.M)
body, start, where = collections.defaultdict(set), set(), {}
for f in sorted(glob.glob(d + '/*.v')):
    name = os.path.basename(f)[:-2]
    if name == 'Assumptions': continue
    s = strip(open(f).read())
    for sent in re.split(r'\.(?=\s)', s):
        m = HEAD.match(sent)
        if not m: continue
        kind, n = m.group(1), m.group(2)
        ids = set(re.findall(r"[A-Za-z_][\w']*", sent[m.end():]))
        if kind in ('Theorem', 'Corollary') and re.match(r'C\d\d_', n): start |= ids
        elif kind in ('Definition', 'Fixpoint', 'Inductive', 'CoInductive', 'Record', 'Class', 'Instance'):
            body[n] |= ids; where.setdefault(n, name)
            for w in re.findall(r"^with\s+(\w+)", sent, re.M): body[w] |= ids | {n}
        elif kind == 'Notation':
            w = re.match(r"[\w']+$", n)
            key = n if w else None
            for k in ([key] if key else re.findall(r"[A-Za-z][\w']*", n)): body[k] |= ids
seen, todo = set(), list(start)
while todo:
    x = todo.pop()
    if x in seen: continue
    seen.add(x); todo += [y for y in body.get(x, ()) if y not in seen]
miss = collections.defaultdict(list)
for n, f in where.items():
    if n not in seen: miss[f].append(n)
for f in sorted(miss): print(f, *miss[f])

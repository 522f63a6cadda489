#!/usr/bin/env python3
"""Regenerates /verif/MANIFEST.json from tools/claims.py (property -> status, note) and the theorem
names Cnn_* found in rocq/theories/Prop*.v."""
import json, re, glob, os, sys
root = os.path.dirname(os.path.dirname(os.path.abspath(__file__)))
sys.path.insert(0, os.path.join(root, 'tools'))
from claims import CLAIMS
thms = {}
per_file = {}
for f in sorted(glob.glob(root + '/rocq/theories/Prop*.v')):
    for m in re.finditer(r'^(?:Theorem|Corollary)\s+(C\d\d)(_\w+)', open(f).read(), re.M):
        thms.setdefault(m.group(1), []).append(m.group(1) + m.group(2))
        per_file.setdefault(os.path.basename(f)[:-2], []).append(m.group(1) + m.group(2))
ids = [json.loads(l)['id'] for l in open(root + '/properties.jsonl')]
out = []
for i in ids:
    if i not in CLAIMS: continue
    st, note = CLAIMS[i]
    out.append({"property": i, "status": st, "theorems": thms.get(i, []), "note": note})
    if st != 'not_applicable' and not thms.get(i): print('no theorem for', i)
for i in thms:
    if i not in CLAIMS: print('theorems without claim', i)
json.dump({"claims": out}, open(root + '/MANIFEST.json', 'w'), indent=1)

# rocq/theories/Assumptions.v: Print Assumptions for every theorem of the manifest, file by file.
with open(root + '/rocq/theories/Assumptions.v', 'w') as h:
    h.write('(** * Assumptions: what the theorems of MANIFEST.json rest on.  Generated by tools/manifest.py.\n\n'
            '    Per file, all its theorems are put into one tuple; [Print Assumptions] of the tuple lists the axioms that any\n'
            '    of them uses.  Each prints [Closed under the global context]. *)\n')
    h.write('From Verif Require ' + ' '.join(per_file) + '.\n')
    for f, ts in per_file.items():
        h.write('\nDefinition of_%s :=\n  (%s).\nPrint Assumptions of_%s.\n' % (f, ',\n   '.join('@Verif.%s.%s' % (f, t) for t in ts) if len(ts) > 1 else '@Verif.%s.%s' % (f, ts[0]), f))

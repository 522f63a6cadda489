#!/usr/bin/env python3
"""Seeded-bug harness.  For each mutant of tools/mutants.py: copy rocq/ to a scratch directory, edit the
model, recompile; every proof that breaks is replaced by Admitted and recompiled, so that in the end
Print Assumptions tells which manifest theorems no longer have a proof.  Results go to
/tmp/seedres/<id>.json."""
import re, os, sys, subprocess, shutil, json, glob, time
from concurrent.futures import ThreadPoolExecutor
root = os.environ.get('SEED_ROOT') or os.path.dirname(os.path.dirname(os.path.abspath(__file__)))
sys.path.insert(0, os.path.join(root, 'tools'))
from mutants import MUTANTS
OUT = '/tmp/seedres'; os.makedirs(OUT, exist_ok=True)
HEAD = re.compile(r'^\s*(?:Local |Global |#\[\w+\] )?(Theorem|Lemma|Corollary|Fact|Remark|Example|Proposition|Instance|Definition)\s+(\w+)', re.M)

def coqc(d, name, tmo, time_flag=False):
    cmd = ['timeout', str(tmo), 'coqc'] + (['-time'] if time_flag else []) + ['-Q', 'theories', 'Verif', 'theories/%s.v' % name]
    p = subprocess.run(cmd, cwd=d, stdout=subprocess.PIPE, stderr=subprocess.STDOUT, text=True, errors='replace')
    return p.returncode, p.stdout

def admit_at(d, name, pos):
    """Replace the proof containing character offset pos by Admitted; returns the lemma's name."""
    f = '%s/theories/%s.v' % (d, name)
    s = open(f).read()
    heads = [m for m in HEAD.finditer(s) if m.start() <= pos]
    for m in reversed(heads):
        pr = re.compile(r'\bProof\b[^.]*\.').search(s, m.end())
        if not pr: continue
        q = re.compile(r'\b(Qed|Defined)\.').search(s, pr.end())
        if not q or q.end() < pos: return None
        if pr.start() > pos and pos > m.end() and not (m.start() <= pos <= pr.end()): continue
        s2 = s[:pr.start()] + 'Admitted.' + ' ' * 0 + s[q.end():]
        open(f, 'w').write(s2)
        return m.group(2)
    return None

def run(mu):
    mid = mu['id']
    res_f = '%s/%s.json' % (OUT, mid)
    if os.path.exists(res_f): return
    d = '/tmp/seed/' + mid
    shutil.rmtree(d, ignore_errors=True); os.makedirs('/tmp/seed', exist_ok=True)
    subprocess.run(['cp', '-a', root + '/rocq', d], check=True)
    res = {'id': mid, 'admitted': [], 'broken': None}
    t0 = time.time()
    edits = mu['edits']
    for (fn, old, new) in edits:
        f = '%s/theories/%s.v' % (d, fn); s = open(f).read()
        if s.count(old) < 1: res['broken'] = 'edit does not apply: ' + old; json.dump(res, open(res_f, 'w')); return
        if s.count(old) > 1 and not mu.get('first'): res['broken'] = 'edit ambiguous: ' + old; json.dump(res, open(res_f, 'w')); return
        s = s.replace(old, new, 1); open(f, 'w').write(s)
    files = [l.strip()[len('theories/'):-2] for l in open(d + '/_CoqProject') if l.startswith('theories/')]
    if any(e[0] == 'Parser' for e in edits):
        g = open(root + '/tools/gen_eq.py').read().replace("root + '/rocq/", "'%s/" % d)
        subprocess.run([sys.executable, '-c', g.replace("os.path.abspath(__file__)", "'/x/y/z'")], check=True)
    def direct(name):
        s = open('%s/theories/%s.v' % (d, name)).read()
        out = set()
        for m in re.finditer(r'From Verif Require (?:Export |Import )?([\w\s]+)\.', s): out |= set(m.group(1).split())
        return out
    dirty = set(e[0] for e in edits)
    order, seen = [], set()             # a topological order
    def visit(n):
        if n in seen: return
        seen.add(n)
        for x in sorted(direct(n)): visit(x)
        order.append(n)
    props_of = {}
    for n in files:
        if n.startswith('Prop'):
            for m in re.finditer(r'^(?:Theorem|Corollary)\s+(C\d+)_', open('%s/theories/%s.v' % (d, n)).read(), re.M): props_of.setdefault(m.group(1), set()).add(n)
    if os.environ.get('SEED_NARROW'):   # only the files that the expected properties rest on
        res['scope'] = sorted(set(f for p in mu['props'] for f in props_of[p]))
        files = res['scope']
    for n in files: visit(n)
    for name in order:
        if name not in dirty and not (direct(name) & dirty): continue
        dirty.add(name)
        f = '%s/theories/%s.v' % (d, name)
        s = open(f).read()
        s = re.sub(r'^Print Assumptions.*?\.\s*$', '', s, flags=re.M); open(f, 'w').write(s)
        for attempt in range(200):
            rc, out = coqc(d, name, 240)
            if rc == 0: break
            if rc == 124:
                rc, out = coqc(d, name, 240, True)
                # -time prints "Chars a - b" for completed sentences
                ms = re.findall(r'Chars (\d+) - (\d+)', out)
                bpos = (int(ms[-1][1]) if ms else 0) + 2
                raw = open(f, 'rb').read(); pos = len(raw[:bpos].decode('utf8', 'replace'))
                why = 'timeout'
            else:
                m = re.findall(r'File "[^"]*", line (\d+), characters (\d+)-', out)
                if not m: res['broken'] = '%s: %s' % (name, out[-400:]); break
                ln, ch = map(int, m[-1])
                lines = open(f).read().split('\n')
                pos = sum(len(x) + 1 for x in lines[:ln - 1]) + min(ch, len(lines[ln-1]))
                why = 'error'
            nm = admit_at(d, name, pos)
            if nm is None:
                res['broken'] = '%s: cannot admit at %d (%s): %s' % (name, pos, why, out[-600:]); break
            res['admitted'].append(name + '.' + nm)
        if res['broken']: break
    if not res['broken']:
        man = json.load(open(root + '/MANIFEST.json'))
        th = [t for c in man['claims'] for t in c['theorems']]
        props = [os.path.basename(p)[:-2] for p in glob.glob(d + '/theories/Prop*.v')]
        where = {}
        for p in props:
            for m in re.finditer(r'^(?:Theorem|Corollary|Lemma)\s+(\w+)', open('%s/theories/%s.v' % (d, p)).read(), re.M): where.setdefault(m.group(1), p)
        if 'scope' in res:
            props = [p for p in props if p in seen]
            th = [t for t in th if where.get(t) in seen]
        chk = 'From Verif Require %s.\n' % ' '.join(sorted(props))
        untouched = [t for t in th if where[t] not in dirty]   # their files do not depend on the edit
        th = [t for t in th if where[t] in dirty]
        for t in th: chk += 'Check I. (* %s *)\nPrint Assumptions Verif.%s.%s.\n' % (t, where[t], t)
        open(d + '/chk.v', 'w').write(chk)
        p = subprocess.run(['coqc', '-Q', 'theories', 'Verif', 'chk.v'], cwd=d, stdout=subprocess.PIPE, stderr=subprocess.STDOUT, text=True)
        if p.returncode: res['broken'] = 'chk: ' + p.stdout[-600:]
        else:
            parts = re.split(r'^I\s*\n?\s*: True\s*$', p.stdout, flags=re.M)[1:]
            assert len(parts) == len(th), (len(parts), len(th))
            res['failed'] = [t for t, o in zip(th, parts) if 'Closed under' not in o]
            res['survived'] = untouched + [t for t, o in zip(th, parts) if 'Closed under' in o]
    res['time'] = time.time() - t0
    json.dump(res, open(res_f, 'w'), indent=1)
    shutil.rmtree(d, ignore_errors=True)
    print(mid, res['broken'], len(res.get('failed', [])), 'failed', '%.0fs' % res['time'], flush=True)

if __name__ == '__main__':
    sel = sys.argv[1:]
    ms = [m for m in MUTANTS if not sel or m['id'] in sel]
    ms.sort(key=lambda m: m['id'][0] != 'w')
    with ThreadPoolExecutor(int(os.environ.get('SEED_JOBS', '2'))) as ex:
        for r in ex.map(run, ms): pass

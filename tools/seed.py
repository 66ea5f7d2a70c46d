#!/usr/bin/env python3
"""Test the theorems against a wrong program.

usage: seed.py MUTANTS.json [first [last]]

Each mutant: {"file": ..., "definition": ..., "old": ..., "new": ..., "claim": ...}.
The theories are copied to a scratch directory, the edit is made there, and everything that
depends on the file is rebuilt.  A proof that fails is replaced by Admitted (in the scratch copy
only) so that the rest can be examined; a theorem counts as failed if its own proof fails or
Print Assumptions shows that it depends on a failed proof.  One line per mutant is printed.
"""
import json, os, re, shutil, subprocess, sys
SRC = os.environ.get('SEEDSRC', '/verif/rocq')
W = os.environ.get('SEEDW', '/tmp/seedw')

def sh(cmd, cwd, timeout=600):
    try:
        p = subprocess.run(cmd, cwd=cwd, shell=True, capture_output=True, text=True, timeout=timeout)
        return p.returncode, p.stdout + p.stderr
    except subprocess.TimeoutExpired:
        return 124, 'TIMEOUT'

def files():
    return [l.strip() for l in open(SRC + '/_CoqProject') if l.strip().endswith('.v')]

def deps():
    _, out = sh('coqdep -f _CoqProject 2>/dev/null', SRC)
    d = {}
    for l in out.splitlines():
        if '.vo' not in l or ':' not in l: continue
        a, b = l.split(':', 1)
        m = re.search(r'(theories/\w+)\.vo\b', a)
        if not m: continue
        d[m.group(1) + '.v'] = [x[:-3] + '.v' for x in b.split() if x.endswith('.vo')]
    return d

START = re.compile(r'^\s*(?:Local\s+|Global\s+)?(Lemma|Theorem|Example|Fact|Corollary|Remark)\s+([\w\']+)', re.M)

def admit(path, line):
    s = open(path).read()
    pos = sum(len(x) + 1 for x in s.split('\n')[:line - 1])
    eol = s.find('\n', pos)
    if eol < 0: eol = len(s)
    best = None
    for m in START.finditer(s):
        if m.start() <= eol: best = m
    if not best: return None
    p = s.find('Proof', best.start())
    q = re.compile(r'\b(Qed|Defined)\.').search(s, p)
    if p < 0 or not q or q.end() < pos: return None
    s = s[:p] + 'Proof. Admitted.' + '\n' * s[p:q.end()].count('\n') + s[q.end():]
    open(path, 'w').write(s)
    return best.group(2)

def run(mu):
    shutil.rmtree(W, ignore_errors=True)
    shutil.copytree(SRC, W)
    f = 'theories/' + mu['file']
    p = W + '/' + f
    s = open(p).read()
    if s.count(mu['old']) < 1: return {'error': 'pattern not found'}
    if s.count(mu['old']) > 1 and not mu.get('nth'): return {'error': 'pattern not unique: %d' % s.count(mu['old'])}
    if mu.get('nth'):
        parts = s.split(mu['old']); k = mu['nth']
        s = mu['old'].join(parts[:k]) + mu['new'] + mu['old'].join(parts[k:])
    else:
        s = s.replace(mu['old'], mu['new'])
    open(p, 'w').write(s)
    d = deps()
    fs, left = [], files()
    while left:  # topological order
        g = next(x for x in left if not any(y in left for y in d.get(x, [])))
        fs.append(g); left.remove(g)
    dirty, bad, failed, broken = {f}, {}, [], []
    flags = ' '.join(l.strip() for l in open(SRC + '/_CoqProject') if l.strip() and not l.strip().endswith('.v'))
    thms = set()
    for g in fs:
        if g not in dirty and not any(x in dirty for x in d.get(g, [])): continue
        dirty.add(g)
        if any(x in broken for x in d.get(g, [])): broken.append(g); continue
        for tries in range(60):
            rc, out = sh('timeout 400 coqc %s %s' % (flags, g), W)
            if rc == 0: break
            m = re.search(r'line (\d+), characters [\d-]+:\s*\nError', out)
            name = admit(W + '/' + g, int(m.group(1))) if m else None
            if not name: broken.append(g); bad[g] = out[-300:]; break
            failed.append(name)
        if g in broken: continue
        if 'Props' in g:
            # Print Assumptions blocks are in order of the theorems
            names = re.findall(r'^Print Assumptions ([\w\']+)\.', open(W + '/' + g).read(), re.M)
            blocks = re.split(r'(?m)^(?=Closed under the global context|Axioms:)', out)[1:]
            for n, b in zip(names, blocks):
                ax = re.findall(r'(?m)^([\w\.\']+)\s*$|^([\w\.\']+) :', b)
                ax = {x.split('.')[-1] for t in ax for x in t if x}
                if ax & set(failed): thms.add(n)
    for g in broken:
        if 'Props' in g: thms.update(re.findall(r'^Theorem ([\w\']+)', open(W + '/' + g).read(), re.M))
    thms.update(x for x in failed if re.match(r'C\d\d', x))
    return {'theorems_failed': sorted(t for t in thms if '_case' not in t), 'lemmas_failed': failed, 'broken_files': bad}

if __name__ == '__main__':
    ms = json.load(open(sys.argv[1]))
    a = int(sys.argv[2]) if len(sys.argv) > 2 else 0
    b = int(sys.argv[3]) if len(sys.argv) > 3 else len(ms)
    for i in range(a, b):
        r = run(ms[i])
        print(json.dumps({'i': i, 'definition': ms[i]['definition'], 'claim': ms[i]['claim'], **r}), flush=True)

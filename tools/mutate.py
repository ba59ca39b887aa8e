#!/usr/bin/env python3
"""Seed a bug into a scratch copy of the model and report which property theorems stop being
proved.  usage: mutate.py MUTANTS.json [jobs]; each mutant is an object with the keys
file, old, new, definition, edit, claim.  Works in /tmp/mut on a snapshot of the
built development in $SRC (default /verif/rocq), never in /verif.

In the scratch copy a failing proof is cut off and the build goes on, so the theorems that
depend on it show up in the Print Assumptions output of the Properties files.
"""
import json, os, re, shutil, subprocess, sys
from concurrent.futures import ThreadPoolExecutor
SRC = os.environ.get('SRC', '/verif/rocq')
FAST = bool(os.environ.get('FAST'))  # stop at the first Properties file with a failing theorem
order = [l.strip()[len('theories/'):-2] for l in open(SRC + '/_CoqProject') if l.strip().endswith('.v')]
text = {f: open(f'{SRC}/theories/{f}.v').read() for f in order}
deps = {}
for f in order:
    d = set()
    for m in re.findall(r'From Verif Require[^.]*\.', text[f]):
        d |= {x for x in re.findall(r'\w+', m) if x in text}
    deps[f] = d | set().union(*[deps[x] for x in d]) if d else set()
HEAD = re.compile(r'^\s*(?:Local |Global )?(Lemma|Theorem|Example|Corollary|Definition|Fixpoint|Inductive|Record|Remark|Fact)\s+(\w+)', re.M)
STOP = 'Admit' + 'ted.'

def enclosing(src, off):
    best = None
    for m in HEAD.finditer(src):
        if m.start() <= off: best = m
        else: break
    return best

def compile_file(d, f, log):
    p = f'{d}/{f}.v'
    for _ in range(60):
        try:
            r = subprocess.run(['coqc', '-Q', '.', 'Verif', f + '.v'], cwd=d, capture_output=True, text=True, timeout=400)
        except subprocess.TimeoutExpired:
            log.append(f'{f}: timeout'); return None
        if r.returncode == 0: return r.stdout
        m = None
        for m in re.finditer(r'line (\d+), characters (\d+)-', r.stderr): pass
        if not m: log.append(f'{f}: {r.stderr[-200:]}'); return None
        src = open(p).read(); lines = src.split('\n')
        off = sum(len(x) + 1 for x in lines[:int(m.group(1)) - 1]) + int(m.group(2))
        h = enclosing(src, off)
        if not h or h.group(1) in ('Definition', 'Fixpoint', 'Inductive', 'Record'):
            log.append(f'{f}: stuck at {h and h.group(2)}: {r.stderr[-300:]}'); return None
        q = re.compile(r'(Qed|Defined)\.').search(src, h.start())
        pr = src.find('Proof', h.start())
        log.append(f'{f}.{h.group(2)}')
        if h.group(1) == 'Example' and h.group(2).startswith('ex_') or off < pr:
            src = src[:h.start()] + src[q.end():]
        else:
            src = src[:pr] + 'Proof. ' + STOP + src[q.end():]
        open(p, 'w').write(src)
    log.append(f'{f}: too many'); return None

def run(i, mu):
    d = f'/tmp/mut/{os.getpid()}_{i}'; shutil.rmtree(d, ignore_errors=True); os.makedirs(d)
    for f in order:
        for e in ('.v', '.vo'): shutil.copy2(f'{BASE}/{f}{e}', d)
    s = text[mu['file']]
    if s.count(mu['old']) != 1: return dict(mu, error=f'{s.count(mu["old"])} matches')
    open(f'{d}/{mu["file"]}.v', 'w').write(s.replace(mu['old'], mu['new']))
    log, bad = [], []
    if 'Tests' in order and mu['file'] in deps['Tests']:  # the tests are not theorems: keep the definitions only
        t = open(f'{d}/Tests.v').read()
        open(f'{d}/Tests.v', 'w').write(re.sub(r'^Example (?:.|\n)*?(?:Qed)\.', '', t, flags=re.M))
    broken = set()
    for f in order:
        if f != mu['file'] and mu['file'] not in deps[f]: continue
        if deps[f] & broken: broken.add(f); continue
        out = compile_file(d, f, log)
        if out is None:
            broken.add(f)
            if FAST and f == mu['file']: break
            continue
        if f.startswith('Properties'):
            names = re.findall(r'^Print Assumptions (\w+)\.', open(f'{d}/{f}.v').read(), re.M)
            parts = re.split(r'(?=^Closed under|^Axioms:|^Section Variables:)', out, flags=re.M)[1:]
            if len(names) == len(parts):
                bad += [n for n, q in zip(names, parts) if not q.startswith('Closed')]
            else: log.append(f'{f}: {len(names)} names, {len(parts)} answers')
        if FAST and (bad or any(re.search(r'\.C\d\d_', x) for x in log)): break
    bad += [x.split('.')[1] for x in log if re.search(r'\.C\d\d_', x)]
    shutil.rmtree(d, ignore_errors=True)
    return dict(mu, failed=sorted(set(bad)), lemmas=log, broken=sorted(broken))

if __name__ == '__main__':
    BASE = f'/tmp/mut/base{os.getpid()}'; os.makedirs(BASE)
    for f in order:
        for e in ('.v', '.vo'): shutil.copy2(f'{SRC}/theories/{f}{e}', BASE)
    mus = json.load(open(sys.argv[1])); jobs = int(sys.argv[2]) if len(sys.argv) > 2 else 3
    with ThreadPoolExecutor(jobs) as ex:
        for i, r in enumerate(ex.map(lambda a: run(*a), enumerate(mus))):
            print(json.dumps(r), flush=True)
    shutil.rmtree(BASE)

"""Seeds one wrong program in a scratch copy of the model and reports which theorems
stop being provable.

usage: mutate.py MUTATIONS.json [--only NAME]

MUTATIONS.json is a list of {"name", "file", "old", "new", "count"?, "definition",
"edit", "claim"}. For each, the model file is edited in a scratch copy, every
dependent file is recompiled, each proof that breaks is replaced by Admitted, and
the theorems of the Props files that depend on an admitted proof (by Print
Assumptions), or whose own proof breaks, are listed. The outcome is appended to
seeded/LOG.jsonl by hand or with --log."""
import json
import os
import re
import shutil
import subprocess
import sys

ROOT = os.path.dirname(os.path.dirname(os.path.abspath(__file__)))
SCRATCH = os.environ.get('SCRATCH', '/tmp/mut')
TH = os.path.join(SCRATCH, 'theories')
START = re.compile(r'^\s*(?:#\[\w+\]\s*)?(?:Local |Global )?(Lemma|Theorem|Example|Corollary|Fact|Remark|Instance|Let)\s+(\w+)', re.M)


def sh(cmd, **kw):
    return subprocess.run(cmd, stdout=subprocess.PIPE, stderr=subprocess.STDOUT, text=True, cwd=TH, **kw)


def order():
    files = sorted(f for f in os.listdir(TH) if f.endswith('.v'))
    out = sh(['coqdep', '-Q', '.', 'Verif'] + files).stdout
    deps = {}
    for line in out.splitlines():
        m = re.match(r'(\w+)\.vo[^:]*: (.*)', line)
        if m:
            deps[m.group(1)] = [d[:-3] for d in m.group(2).split() if d.endswith('.vo') and '/' not in d]
    done = []

    def visit(f):
        if f in done:
            return
        for d in deps.get(f, []):
            visit(d)
        done.append(f)
    for f in sorted(deps):
        visit(f)
    return done, deps


def admit(path, line):
    """Replaces the proof around `line` (1-based) by Admitted; returns the name."""
    text = open(path).read()
    lines = text.split('\n')
    pos = sum(len(x) + 1 for x in lines[:line - 1])
    last = None
    for m in START.finditer(text):
        # an error is reported on the line of the failing sentence
        if m.start() <= pos + len(lines[line - 1]):
            last = m
        else:
            break
    if last is None:
        return None
    end = re.compile(r'\b(Qed|Defined)\.').search(text, last.start())
    pr = re.compile(r'\bProof\b').search(text, last.start())
    if end is None or pr is None or pr.start() > end.start() or end.end() < pos:
        return None
    text = text[:pr.start()] + 'Proof. Admitted.' + text[end.end():]
    open(path, 'w').write(text)
    return last.group(2)


def run(mut):
    if os.path.exists(SCRATCH):
        shutil.rmtree(SCRATCH)
    shutil.copytree(os.environ.get('SRC', os.path.join(ROOT, 'rocq')), SCRATCH)
    p = os.path.join(TH, mut['file'])
    src = open(p).read()
    n = mut.get('count', 1)
    if src.count(mut['old']) < 1:
        return {'error': 'pattern not found'}
    src2 = src.replace(mut['old'], mut['new'], n)
    open(p, 'w').write(src2)
    files, deps = order()
    dirty = {mut['file'][:-2]}
    for f in files:
        if any(d in dirty for d in deps.get(f, [])):
            dirty.add(f)
    broken, failed, dead = [], [], []
    for f in files:
        if f not in dirty:
            vo = os.path.join(TH, f + '.vo')
            if not os.path.exists(vo):
                r = sh(['coqc', '-Q', '.', 'Verif', f + '.v'])
                assert r.returncode == 0, r.stdout
            continue
        path = os.path.join(TH, f + '.v')
        own = set()
        while True:
            try:
                r = sh(['coqc', '-Q', '.', 'Verif', f + '.v'], timeout=900)
                out, rc = r.stdout, r.returncode
            except subprocess.TimeoutExpired:
                out, rc = 'timeout', 1
            if rc == 0:
                break
            m = None
            for m in re.finditer(r'line (\d+), characters', out):
                pass
            name = admit(path, int(m.group(1))) if m else None
            if name is None:
                dead.append((f, out[-400:]))
                return {'broken': broken, 'failed': failed, 'dead': dead}
            broken.append(f + '.' + name)
            own.add(name)
        if f.startswith('Props_'):
            text = open(path).read()
            names = re.findall(r'Print Assumptions (\w+)', text)
            chunks = re.split(r'^(?=Axioms:|Closed under)', out, flags=re.M)
            chunks = [c for c in chunks if c.startswith(('Axioms:', 'Closed under'))]
            bad = {b.split('.')[1] for b in broken}
            for nm, ch in zip(names, chunks):
                ax = set(re.findall(r'^(?:\w+\.)*(\w+)', ch, re.M)) if ch.startswith('Axioms') else set()
                if ax & bad:
                    failed.append(nm)
    return {'broken': broken, 'failed': failed, 'dead': dead}


def main():
    muts = json.load(open(sys.argv[1]))
    only = sys.argv[sys.argv.index('--only') + 1] if '--only' in sys.argv else None
    for mut in muts:
        if only and mut['name'] != only:
            continue
        res = run(mut)
        print(mut['name'], json.dumps(res), flush=True)
        if '--log' in sys.argv and 'error' not in res and not res['dead']:
            with open(os.path.join(ROOT, 'seeded', 'LOG.jsonl'), 'a') as g:
                g.write(json.dumps(dict(
                    definition=mut['file'] + ': ' + mut['definition'], edit=mut['edit'],
                    claim=mut['claim'], theorems_failed=res['failed'],
                    first_broken_lemmas=res['broken'][:8],
                    theorems_tightened=mut.get('tightened', []),
                    note=mut.get('note', ''))) + '\n')


if __name__ == '__main__':
    main()

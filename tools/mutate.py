#!/usr/bin/env python3
"""Mutation experiments on a scratch copy of the model (never inside /verif).

usage: mutate.py specs.json [id ...]
A spec is {id, file, old, new, definition, edit, claim, props}.  For each one the sources and the
compiled files are copied to a scratch directory, the edit is applied, and everything is rebuilt.  A
proof that no longer goes through is replaced by [Admitted] in the scratch copy and the build goes on,
so that in the end the references recorded in the .glob files tell which property theorems rest on a
broken proof.
One JSON line per experiment is appended to seeded/LOG.jsonl.
"""
import json, os, re, shutil, subprocess, sys, time
ROOT = '/verif/rocq'
SCR = os.environ.get('SCRATCH', '/tmp/mut/scratch')
JOBS = os.environ.get('MJOBS', '2')
START = re.compile(r'^\s*(?:#\[[^\]]*\]\s*)?(?:Global |Local )?(?:Program )?(Lemma|Theorem|Example|Corollary|Fact|Remark|Instance|Definition)\s+([\w\']+)')
END = re.compile(r'(Qed|Defined)\.')

def sh(cmd, t=2400):
    try:
        r = subprocess.run(cmd, shell=True, cwd=SCR, stdout=subprocess.PIPE, stderr=subprocess.STDOUT, text=True, timeout=t)
        return r.returncode, r.stdout
    except subprocess.TimeoutExpired as e:
        return 99, (e.stdout or b'').decode() if isinstance(e.stdout, bytes) else (e.stdout or '')

def admit(path, line):
    """replace the proof around [line] by Admitted; return the lemma's name"""
    ls = open(path).read().split('\n')
    i = line - 1
    while i >= 0 and not START.match(ls[i]): i -= 1
    if i < 0: return None
    name = START.match(ls[i]).group(2)
    j = i
    while j < len(ls) and not END.search(ls[j]): j += 1
    if j >= len(ls): return None
    k = i
    while k <= j and not re.search(r'\bProof\b', ls[k]): k += 1
    if k > j: return None
    pre = ls[k][:re.search(r'\bProof\b', ls[k]).start()]
    post = ls[j][END.search(ls[j]).end():]
    ls[k:j + 1] = [pre + 'Proof. Admitted.' + post] + [''] * (j - k)
    open(path, 'w').write('\n'.join(ls))
    return name

def run(spec, theorems):
    shutil.rmtree(SCR, ignore_errors=True)
    shutil.copytree(ROOT, SCR, symlinks=True)
    p = f"{SCR}/theories/{spec['file']}"
    s = open(p).read()
    if s.count(spec['old']) < 1: return {'error': 'pattern not found'}
    s = s.replace(spec['old'], spec['new']) if spec.get('all') else s.replace(spec['old'], spec['new'], 1)
    open(p, 'w').write(s)
    broken, t0 = [], time.time()
    sh('coq_makefile -f _CoqProject -o Makefile')
    sh('find theories -name "*.v" | xargs sed -i "s/^Print Assumptions.*$//"')
    sh('find theories -name "*.vo" -newer theories/%s' % spec['file'])
    # keep timestamps valid: only the edited file is newer than its .vo
    for f in os.listdir(f'{SCR}/theories'):
        if f.endswith('.v') and f != spec['file']: os.utime(f'{SCR}/theories/{f}', (0, 0))
    for rnd in range(80):
        rc, out = sh(f'make -k -j{JOBS} COQC="timeout 600 coqc" 2>&1')
        if rc == 0: break
        errs = re.findall(r'File "\./theories/([\w]+\.v)", line (\d+), characters[^\n]*\n(?:Error|In environment)', out)
        if not errs: errs = re.findall(r'File "\./theories/([\w]+\.v)", line (\d+), characters[^\n]*:\nError', out)
        if not errs: return {'error': 'build failed without location', 'out': out[-1500:], 'broken': broken}
        for f, l in dict(errs).items():
            n = admit(f'{SCR}/theories/{f}', int(l))
            if n is None: return {'error': f'cannot admit {f}:{l}', 'out': out[-1500:], 'broken': broken}
            if (f, n) in broken: return {'error': f'still failing {f}:{n}', 'out': out[-1500:], 'broken': broken}
            broken.append((f, n))
    # which property theorems rest on an admitted lemma: closure over the references in the .glob files
    bad = {(f[:-2], n) for f, n in broken}
    refs = {}
    for f in os.listdir(f'{SCR}/theories'):
        if not f.endswith('.glob'): continue
        m, ev = f[:-5], []
        for l in open(f'{SCR}/theories/{f}'):
            d = re.match(r'(prf|def|thm|inst|ex|coe|rec|ind|lemma|fact|class) (\d+):\d+ (\S+) (\S+)', l)
            r = re.match(r'R(\d+):\d+ Verif\.(\w+) (\S+) (\S+) \w+', l)
            if d: ev.append((int(d.group(2)), 0, (m, d.group(4))))
            elif r: ev.append((int(r.group(1)), 1, (r.group(2), r.group(4))))
        cur = None
        for _, k, x in sorted(ev):
            if k == 0: cur = x; refs.setdefault(cur, set())
            elif cur: refs[cur].add(x)
    rev = {}
    for x, ys in refs.items():
        for y in ys: rev.setdefault(y, set()).add(x)
    todo = list(bad)
    while todo:
        y = todo.pop()
        for x in rev.get(y, ()):
            if x not in bad: bad.add(x); todo.append(x)
    tainted = [t for m, t in theorems if (m, t) in bad]
    return {'broken': [f'{f}:{n}' for f, n in broken], 'tainted': tainted, 'secs': round(time.time() - t0)}

def main():
    specs = json.load(open(sys.argv[1]))
    only = set(sys.argv[2:])
    log = '/verif/seeded/LOG.jsonl'
    done = set()
    if os.path.exists(log):
        for l in open(log): done.add(json.loads(l).get('id'))
    for sp in specs:
        if only and sp['id'] not in only: continue
        if not only and sp['id'] in done: continue
        ths = []
        for f in sorted(os.listdir(ROOT + '/theories')):
            if f.startswith('Props') and f.endswith('.v') and f'theories/{f}' in open(ROOT + '/_CoqProject').read():
                for m in re.finditer(r'^\s*Theorem (C\d+\w*)', open(f'{ROOT}/theories/{f}').read(), re.M): ths.append((f[:-2], m.group(1)))
        r = run(sp, ths)
        if 'error' in r:
            print(sp['id'], 'ERROR', r['error'], r.get('out', '')[-800:], r.get('broken'), flush=True); continue
        hit = {p: [t for t in r['tainted'] if t.startswith(p + '_')] for p in sp['props']}
        weak = [p for p, l in hit.items() if not l]
        print(sp['id'], 'WEAK ' + str(weak) if weak else 'caught', r['secs'], 's;', len(r['broken']), 'broken;', len(r['tainted']), 'tainted', hit, flush=True)
        rec = {'id': sp['id'], 'definition': f"{sp['definition']} ({sp['file']})", 'edit': sp['edit'], 'claim_broken': sp['claim'],
               'properties': sp['props'], 'first_broken_proofs': r['broken'][:6],
               'theorems_failed': r['tainted'], 'survived': weak, 'theorems_tightened': sp.get('tightened', [])}
        with open(log, 'a') as g: g.write(json.dumps(rec) + '\n')
main()

#!/usr/bin/env python3
"""Seeded-bug experiments.  usage: seed.py batch.py
batch.py defines M = [(file, definition, old, new, claim, [property theorem prefixes expected to fail]), ...].
Each edit is applied to a scratch copy of /verif/rocq, rebuilt with make -k; a JSON line is appended to
/verif/seeded/LOG.jsonl.  'survived' lists expected theorems whose file still compiled."""
import sys, os, re, subprocess, shutil, json, time
batch = sys.argv[1]; S = '/tmp/seed_' + os.path.basename(batch).split('.')[0]
ns = {}; exec(open(batch).read(), ns)
LOG = '/verif/seeded/LOG.jsonl'
def enclosing(path, line):
    L = open(path).read().split('\n')
    for i in range(min(line, len(L)) - 1, -1, -1):
        m = re.match(r'\s*(Theorem|Lemma|Example|Corollary|Definition|Fixpoint|Fact|Global Instance|Local Lemma)\s+([\w\']+)', L[i])
        if m: return m.group(2)
    return '?'
for (f, d, old, new, claim, exp) in ns['M']:
    t0 = time.time()
    shutil.rmtree(S, ignore_errors=True); shutil.copytree('/verif/rocq', S, copy_function=shutil.copy2)
    p = f'{S}/theories/{f}'; s = open(p).read()
    if s.count(old) != 1:
        print('SKIP', f, d, repr(old), 'count', s.count(old)); continue
    open(p, 'w').write(s.replace(old, new))
    try:
        r = subprocess.run(['make', '-k', '-j3'], cwd=S, capture_output=True, text=True, timeout=1500)
        out = r.stdout + r.stderr; rc = r.returncode
    except subprocess.TimeoutExpired as e:
        out = ((e.stdout or b'').decode() + (e.stderr or b'').decode()); rc = 'timeout'
    errs = []
    for m in re.finditer(r'File "\./theories/(\w+\.v)", line (\d+), characters [^\n]*:\n(Error[^\n]*|[^\n]*\n?Error[^\n]*)', out):
        e = m.group(1) + ':' + enclosing(f'{S}/theories/{m.group(1)}', int(m.group(2)))
        if e not in errs: errs.append(e)
    # which property theorems are no longer available
    lost = []; alive = []
    for v in sorted(os.listdir(f'{S}/theories')):
        if not v.endswith('.v') or re.match(r't\d*\.v', v): continue
        vo = f'{S}/theories/{v}o'
        src = open(f'{S}/theories/{v}').read()
        built = os.path.exists(vo) and os.path.getmtime(vo) >= os.path.getmtime(f'{S}/theories/{v}')
        # make deletes nothing: a stale vo means some dependency failed
        if built and rc != 0:
            stale = subprocess.run(['make', '-q', f'theories/{v}o'], cwd=S, capture_output=True).returncode != 0
            built = not stale
        names = re.findall(r'^Theorem (C\d\d_\w+)', src, re.M)
        if not built and v[:-2] + '.v' in [e.split(':')[0] for e in errs]:
            # theorems before the failing one still hold
            fail = [e.split(':')[1] for e in errs if e.startswith(v + ':')][0]
            pos = src.find(fail)
            for n in names:
                (alive if n != fail and src.find('Theorem ' + n) < src.find(' ' + fail) else lost).append(n)
        else: (alive if built else lost).extend(names)
    surv = [x for x in exp if any(n.startswith(x) for n in alive) and not any(n.startswith(x) for n in lost)]
    rec = dict(definition=f'{f}: {d}', edit=f'{old}  ==>  {new}', claim_broken=claim, build_error_at=errs,
               theorems_failed=[n for n in lost if any(n.startswith(x[:3]) for x in exp)], survived=surv, theorems_tightened=[])
    open(LOG, 'a').write(json.dumps(rec) + '\n')
    print('OK  ' if not surv and lost else 'WEAK', f, d, '|', claim, '| errs', errs, '| survived', surv, '| %.0fs' % (time.time() - t0), flush=True)

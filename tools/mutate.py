#!/usr/bin/env python3
"""Apply one edit to a scratch copy of the model and report which theorems fail.

usage: mutate.py MUTANTS.json [id ...]   (appends to seeded/LOG.jsonl)

A mutant is {"id", "file", "definition", "old", "new", "claim", ["tightened"]}.  Failing proofs are
admitted in the scratch copy one by one; a theorem has failed if its own proof was admitted or if
it depends on an admitted lemma."""
import json, os, re, shutil, subprocess, sys, tempfile
from concurrent.futures import ThreadPoolExecutor
R = os.environ.get('MUTROOT', '/verif/rocq')  # a compiled copy of the development
HEAD = re.compile(r'^[ \t]*(?:Lemma|Theorem|Example|Corollary|Fact|Remark|Definition|Instance|Fixpoint)\s+([\w\']+)', re.M)

def deps():
    out = subprocess.run(['coqdep', '-Q', 'theories', 'Verif'] + sorted(files()), cwd=R, capture_output=True, text=True).stdout
    d = {}
    for l in out.splitlines():
        m = re.match(r'theories/(\w+)\.vo.*?:(.*)', l)
        if m: d[m.group(1)] = [x for x in re.findall(r'theories/(\w+)\.vo', m.group(2)) if x != m.group(1)]
    return d
def files():
    return [l.strip() for l in open(R + '/_CoqProject') if l.strip().endswith('.v')]
def order():
    return [os.path.basename(f)[:-2] for f in files()]

def coqc(dir, name, timeout=400):
    """None if it compiles, else the byte offset of the failing sentence and the message."""
    p = dir + '/theories/%s.v' % name
    try:
        r = subprocess.run(['coqc', '-time', '-Q', dir + '/theories', 'Verif', p], capture_output=True, text=True, timeout=timeout)
    except subprocess.TimeoutExpired as e:
        out = (e.stdout or b'').decode(errors='replace')
        m = re.findall(r'Chars (\d+) - (\d+)', out)
        return (int(m[-1][1]) + 1 if m else 0, 'timeout')
    if r.returncode == 0: return None
    m = list(re.finditer(r'line (\d+), characters (\d+)-(\d+):\nError:?(.*)', r.stderr, re.S))
    if not m: return (0, r.stderr[-500:])
    m = m[-1]
    src = open(p, 'rb').read().split(b'\n')
    off = sum(len(l) + 1 for l in src[:int(m.group(1)) - 1]) + int(m.group(2))
    return (off, ' '.join(m.group(4).split())[:200])

def admit(dir, name, off):
    """Admit the proof that contains [off]; the name of its lemma."""
    p = dir + '/theories/%s.v' % name
    b = open(p, 'rb').read()
    pre = b[:off].decode(errors='ignore')
    hs = list(HEAD.finditer(pre))
    if not hs: return None
    h = hs[-1]
    s = b.decode()
    ends = [m for m in re.finditer(r'\b(Qed|Defined|Abort)\.', s) if m.start() >= h.start()]
    if not ends: return None
    blk = s[h.start():ends[0].end()]
    mp = re.search(r'\bProof\b', blk)
    if not mp or 'Admitted' in blk: return None
    new = s[:h.start() + mp.start()] + 'Proof. Admitted.' + s[h.start() + mp.start() + len(blk[mp.start():]):]
    # off may lie after the block (statement of something without a proof)
    if len(s[:ends[0].end()].encode()) < off: return None
    open(p, 'w').write(new)
    return h.group(1)

def failing(dir, name):
    """Run the whole file through coqtop, admitting what fails: the byte offsets of the failing proofs."""
    s = open(dir + '/theories/%s.v' % name).read()
    ends = list(re.finditer(r'\bQed\.', s))
    t, last = ['Set Silent. Set Default Timeout 60.\n'], 0
    for k, e in enumerate(ends):
        t += [s[last:e.end()], '\nAdmitted.\nCheck mark_%d.\n' % k]; last = e.end()
    t.append(s[last:])
    try:
        r = subprocess.run(['coqtop', '-q', '-Q', dir + '/theories', 'Verif'], input=''.join(t), capture_output=True, text=True, timeout=1500)
        err = r.stdout + r.stderr if not r.stderr else r.stderr
    except subprocess.TimeoutExpired as e:
        err = (e.stderr or b'').decode(errors='replace')
    bad, prev = [], 0
    for m in re.finditer(r'The reference mark_(\d+) was not found', err):
        if 'No focused proof' not in err[prev:m.start()]:
            bad.append(len(s[:ends[int(m.group(1))].start()].encode()))
        prev = m.end()
    return bad

def run(m):
    D = deps(); O = order()
    dir = tempfile.mkdtemp(prefix='m_' + m['id'] + '_', dir='/tmp/mut')
    shutil.copytree(R + '/theories', dir + '/theories')
    p = dir + '/theories/' + m['file'] + '.v'
    s = open(p).read()
    if s.count(m['old']) != 1: return dict(m, error='pattern occurs %d times' % s.count(m['old']))
    open(p, 'w').write(s.replace(m['old'], m['new']))
    dirty = {m['file']}; failed = []; broken = []; swept = {}
    for f in O:
        if f not in dirty and not any(d in dirty for d in D.get(f, [])): continue
        dirty.add(f)
        if any(d in broken for d in D.get(f, [])): broken.append(f); continue
        for _ in range(60):
            e = coqc(dir, f)
            if e is None: break
            if not swept.get(f):
                swept[f] = True
                bad = failing(dir, f)
                if bad:
                    ns = [admit(dir, f, o) for o in reversed(bad)]
                    failed += [n for n in reversed(ns) if n]
                    continue
            n = admit(dir, f, e[0])
            if n is None: broken.append(f); failed.append('%s: %s' % (f, e[1])); break
            failed.append(n)
        else: broken.append(f)
    # which theorems depend on an admitted lemma
    names = set(failed); thms = []
    for f in O:
        if f not in dirty or not f.endswith('Props'): continue
        ts = re.findall(r'^\s*Theorem (C\d+\w+)', open(R + '/theories/%s.v' % f).read(), re.M)
        if f in broken: thms += ts; continue
        q = 'From Verif Require Import %s.\n' % f + ''.join('Print Assumptions %s.\nCheck 0%%nat.\n' % t for t in ts)
        open(dir + '/q.v', 'w').write('From Coq Require Import Arith.\n' + q)
        out = subprocess.run(['coqc', '-Q', dir + '/theories', 'Verif', dir + '/q.v'], capture_output=True, text=True).stdout
        for t, o in zip(ts, out.split('0%nat\n     : nat') if '0%nat' in out else out.split('0\n     : nat')):
            ax = set(x.split('.')[-1] for x in re.findall(r'^([\w.\']+)\s*(?::|$)', o, re.M))
            if ax & names or t in names: thms.append(t)
    shutil.rmtree(dir)
    return {'id': m['id'], 'file': 'rocq/theories/%s.v' % m['file'], 'definition': m['definition'],
            'edit': {'old': m['old'], 'new': m['new']}, 'claim': m['claim'],
            'failed_lemmas': failed, 'theorems_failed': thms, 'theorems_tightened': m.get('tightened', [])}

def main():
    ms = json.load(open(sys.argv[1])); ids = sys.argv[2:]
    if ids: ms = [m for m in ms if m['id'] in ids]
    log = '/verif/seeded/LOG.jsonl'
    done = set(json.loads(l)['id'] for l in open(log)) if os.path.exists(log) else set()
    ms = [m for m in ms if ids or m['id'] not in done]
    with ThreadPoolExecutor(int(os.environ.get('J', '3'))) as ex:
        for r in ex.map(run, ms):
            if 'error' in r: print(r['id'], 'ERROR', r['error']); continue
            open(log, 'a').write(json.dumps(r) + '\n')
            print(r['id'], r['definition'], '->', len(r['theorems_failed']), 'failed:', ' '.join(r['theorems_failed'])[:300] or 'NONE', flush=True)
if __name__ == '__main__': main()

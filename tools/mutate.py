#!/usr/bin/env python3
"""Seeded-bug runner.  usage: mutate.py mutations.json [name ...]
Each mutation edits the model in a scratch copy (/tmp/mut).  Every lemma whose proof script fails is
replaced by Admitted and the build goes on; a property theorem counts as failed if it was admitted
itself or if Print Assumptions shows that it rests on an admitted lemma."""
import json, os, re, shutil, subprocess, sys, time
SRC, DST = os.environ.get('SRC', '/verif/rocq'), os.environ.get('MUT', '/tmp/mut')
J = os.environ.get('JOBS', '2')
def sh(c, t=None):
    return subprocess.run(c, shell=True, stdout=subprocess.PIPE, stderr=subprocess.STDOUT, text=True, timeout=t).stdout
HEAD = re.compile(r'^[ \t]*(Lemma|Theorem|Example|Corollary|Fact|Remark)\s+([\w\']+)', re.M)
def admit(path, off):
    s = open(path).read()
    ms = [m for m in HEAD.finditer(s) if m.start() <= off]
    if not ms: return None
    m = ms[-1]; name = m.group(2)
    p = re.compile(r'Proof\b').search(s, m.start())
    q = re.compile(r'\b(Qed|Defined)\.').search(s, max(p.start(), 0))
    if not p or not q or q.end() < off - 5 and s[q.end():off].strip() and HEAD.search(s, q.end(), off): return None
    if off < p.start():   # the statement itself fails
        return '!' + name
    if q.end() < off - 5: return '?' + name
    s = s[:p.start()] + 'Admitted.' + s[q.end():]
    open(path, 'w').write(s)
    return name
def line_off(path, line, ch):
    s = open(path, 'rb').read().split(b'\n')
    o = sum(len(x) + 1 for x in s[:line-1]) + ch
    return len(open(path, 'rb').read()[:o].decode('utf8', 'ignore'))
def run(mu):
    t0 = time.time()
    sh(f'rm -rf {DST}; mkdir -p {DST}; cp -a {SRC}/. {DST}/')
    f = f"{DST}/theories/{mu['file']}"
    s = open(f).read()
    if s.count(mu['old']) != mu.get('count', 1): return {'error': f"pattern occurs {s.count(mu['old'])} times"}
    open(f, 'w').write(s.replace(mu['old'], mu['new']))
    admitted = []; err = None
    # QUICK: build only the files that state the claims expected to fail
    goals = ''
    if os.environ.get('QUICK') and mu['breaks']:
        for x in sorted(os.listdir(f'{SRC}/theories')):
            if x.startswith('Prop') and x.endswith('.v') and any(f'Theorem {c}_' in open(f'{SRC}/theories/{x}').read() for c in mu['breaks']): goals += f' theories/{x}o'
    for it in range(400):
        out = sh(f'cd {DST} && coq_makefile -f _CoqProject -o Makefile >/dev/null 2>&1; make -k -j{J} COQC="timeout 300 coqc"{goals} 2>&1')
        errs = re.findall(r'File "\./(theories/\w+\.v)", line (\d+), characters (\d+)-(\d+):\nError', out)
        tmo = re.findall(r'\[(?:[^\]]*: )?(theories/\w+)\.vo\] Error 124', out)
        if not errs and not tmo:
            if 'Error' in out and '***' in out: err = out[-1500:]
            break
        progress = False
        for (p, l, a, b) in errs:
            path = f'{DST}/{p}'
            n = admit(path, line_off(path, int(l), int(a)))
            if n is None or n[0] in '!?': err = f'cannot admit in {p} line {l}: {n}'; break
            admitted.append(f'{os.path.basename(p)[:-2]}.{n}'); progress = True
        for p in tmo:
            o = sh(f'cd {DST} && timeout 300 coqc -time -Q theories Verif {p}.v')
            e = re.findall(r'Chars \d+ - (\d+)', o)
            path = f'{DST}/{p}.v'
            raw = open(path, 'rb').read()
            off = len(raw[:int(e[-1]) + 3].decode('utf8', 'ignore'))
            n = admit(path, off)
            if n is None or n[0] in '!?': err = f'timeout, cannot admit in {p}: {n}'; break
            admitted.append(f'{os.path.basename(p)}.{n} (timeout)'); progress = True
        if err or not progress: break
    if err: return {'error': err, 'admitted': admitted}
    names = [a.split('.')[1].split(' ')[0] for a in admitted]
    thms = []
    props = sorted(x for x in os.listdir(f'{DST}/theories') if x.startswith('Prop') and x.endswith('.v'))
    if goals: props = [x for x in props if f'theories/{x}o' in goals.split()]
    chk = 'From Verif Require ' + ' '.join(x[:-2] for x in props) + '.\n'
    for x in props:
        if os.path.getmtime(f'{DST}/theories/{x}o') < t0: continue   # not rebuilt: unaffected
        for t in re.findall(r'^Theorem (C\d\d_\w+)', open(f'{DST}/theories/{x}').read(), re.M):
            thms.append(t); chk += f'Redirect "{DST}/pa_{t}" Print Assumptions {x[:-2]}.{t}.\n'
    open(f'{DST}/Check.v', 'w').write(chk)
    failed = []
    if names:
        o = sh(f'cd {DST} && coqc -Q theories Verif Check.v')
        if 'Error' in o: return {'error': o[-800:], 'admitted': admitted}
        for t in thms:
            a = open(f'{DST}/pa_{t}.out').read()
            if t in names or any(re.search(r'(^|[\s.])' + re.escape(n) + r'\s*(:|$)', a, re.M) for n in names): failed.append(t)
    return {'failed': failed, 'lemmas': admitted, 'seconds': round(time.time() - t0)}
if __name__ == '__main__':
    ms = json.load(open(sys.argv[1])); want = sys.argv[2:]
    for mu in ms:
        if want and mu['name'] not in want: continue
        done = [json.loads(l).get('name') for l in open('/verif/seeded/LOG.jsonl')] if os.path.exists('/verif/seeded/LOG.jsonl') else []
        if mu['name'] in done and not want: continue
        r = run(mu)
        if 'error' in r: print(mu['name'], 'ERROR', r, flush=True); continue
        bad = sorted({t[:3] for t in r['failed']})
        missing = [c for c in mu['breaks'] if c not in bad]
        rec = {'name': mu['name'], 'definition': f"rocq/theories/{mu['file']}: {mu['definition']}", 'edit': mu['edit'], 'claims_broken': mu['breaks'], 'why': mu['why'],
               'theorems_failed': r['failed'], 'first_failing_lemmas': r['lemmas'], 'claims_not_detected': missing, 'theorems_tightened': []}
        open('/verif/seeded/LOG.jsonl', 'a').write(json.dumps(rec, ensure_ascii=False) + '\n')
        print(mu['name'], 'ok' if not missing else f'MISSING {missing}', 'failed props', bad, r['seconds'], flush=True)

#!/usr/bin/env python3
"""Systematic mutation testing: random small edits of definitions of the model.
usage: automutate.py SRC(compiled copy of rocq/) WORK SEED COUNT LOGFILE [files...]
Each edit changes one token of one definition (operator, number, index, boolean, argument order).
The project is rebuilt until the first error.  Result per edit: invalid (the edited file itself does
not compile), killed (by which lemma), survived (everything still compiles: equivalent edit or weak
theorem; to be judged by hand)."""
import json, os, random, re, subprocess, sys, time
SRC, WORK, SEED, COUNT, LOG = sys.argv[1], sys.argv[2], int(sys.argv[3]), int(sys.argv[4]), sys.argv[5]
FILES = sys.argv[6:] or ['Voigt.v','Models.v','Frameworks.v','Spaces.v','Lab.v','LabPlot.v','NDVoigt.v','NDFrameworks.v','NDSpaces.v','NDLab.v','NDParSpaces.v','NDParallel.v','Torch.v','Typed.v','RoundedCode.v','RoundedSpaces.v']
def sh(c):
    return subprocess.run(c, shell=True, stdout=subprocess.PIPE, stderr=subprocess.STDOUT, text=True, errors='replace').stdout
HEAD = re.compile(r"^[ \t]*(Definition|Fixpoint)\s+([\w']+)", re.M)
ANY = re.compile(r"^[ \t]*(Definition|Fixpoint|Lemma|Theorem|Example|Record|Inductive|Section|End|Arguments|Notation|Local|Context|Instance|Module|Coercion|Open|Variant)\b", re.M)
def defs(path):
    s = open(path).read(); out = []
    starts = [m.start() for m in ANY.finditer(s)] + [len(s)]
    for m in HEAD.finditer(s):
        e = min(x for x in starts if x > m.start())
        body = s.find(':=', m.start(), e)
        if body < 0: continue
        out.append((m.group(2), body + 2, e))
    return s, out
OPS = [(r' \+ ', [' - ']), (r' - ', [' + ']), (r' \* ', [' + ']), (r' / ', [' * ']), (r'&&', ['||']), (r'\|\|', ['&&']),
       (r'\btrue\b', ['false']), (r'\bfalse\b', ['true']), (r'\bX0\b', ['X1']), (r'\bX1\b', ['X2']), (r'\bX2\b', ['X0']),
       (r'\bV0\b', ['V1']), (r'\bV1\b', ['V2']), (r'\bV3\b', ['V4']), (r'\bV4\b', ['V5']), (r'\bV5\b', ['V3']),
       (r'(?<![\w^.])0\b', ['1']), (r'(?<![\w^.])1\b', ['2']), (r'(?<![\w^.])2\b', ['3']), (r'(?<![\w^.])3\b', ['2']), (r'(?<![\w^.])4\b', ['2']),
       (r'\bnegb ', ['']), (r'\bNat\.ltb\b', ['Nat.leb']), (r'\bDeformed\b', ['Undeformed']), (r'\bUndeformed\b', ['Deformed']),
       (r'\bvadd\b', ['vsub']), (r'\bvsub\b', ['vadd']), (r'\bTypeError\b', ['ValueError']), (r'\bValueError\b', ['TypeError']),
       (r'\bfst\b', ['snd']), (r'\bsnd\b', ['fst']), (r'\bself\b', ["s0"]),
       (r"\b(?P<f>[A-Za-z]\w*) (?P<a>[A-Za-z]\w*'?) (?P<b>[A-Za-z]\w*'?)\b", ['SWAP']),
       (r'\bAdd\b', ['Sub']), (r'\bSub\b', ['Add']), (r'\bMul\b', ['Div']), (r'\bDiv\b', ['Mul'])]
def strip_comments(s, a, b):
    t = list(s[a:b]); d = 0; i = 0
    while i < len(t):
        if t[i:i+2] == ['(', '*']: d += 1; t[i] = t[i+1] = ' '; i += 2; continue
        if d and t[i:i+2] == ['*', ')']: d -= 1; t[i] = t[i+1] = ' '; i += 2; continue
        if d: t[i] = ' '
        i += 1
    return ''.join(t)
KW = {'fun','let','in','match','with','if','then','else','end','as','return','forall','Ok','Some','None','Raise'}
rnd = random.Random(SEED)
pool = []
for f in FILES:
    p = f'{SRC}/theories/{f}'; s, ds = defs(p)
    for (n, a, b) in ds:
        t = strip_comments(s, a, b); c = []
        for (pat, reps) in OPS:
            for m in re.finditer(pat, t):
                for r in reps:
                    if r == 'SWAP':
                        x, y, z = m.group('f'), m.group('a'), m.group('b')
                        if y == z or {x, y, z} & KW: continue
                        r = f'{x} {z} {y}'
                    c.append((a + m.start(), a + m.end(), r))
        if c: pool.append((f, n, c))
rnd.shuffle(pool)
done = set()
if os.path.exists(LOG):
    done = {json.loads(l)['id'] for l in open(LOG)}
k = 0
while k < COUNT:
    f, n, c = pool[k % len(pool)]; (a, b, r) = rnd.choice(c); k += 1
    s = open(f'{SRC}/theories/{f}').read()
    ident = f'{f}:{n}:{a}:{r}'
    if ident in done: continue
    t0 = time.time()
    sh(f'rm -rf {WORK}; mkdir -p {WORK}; cp -a {SRC}/. {WORK}/')
    open(f'{WORK}/theories/{f}', 'w').write(s[:a] + r + s[b:])
    ln = s.count('\n', 0, a) + 1
    out = sh(f'cd {WORK} && coq_makefile -f _CoqProject -o Makefile >/dev/null 2>&1; nice make -j1 COQC="timeout 300 coqc" 2>&1')
    err = re.findall(r'File "\./theories/(\w+\.v)", line (\d+)', out[max(0, out.rfind('\nError') - 4000):]) if 'Error' in out else []
    res = {'id': ident, 'file': f, 'definition': n, 'line': ln, 'old': s[s.rfind('\n', 0, a)+1:s.find('\n', b)].strip()[:160],
           'new': (s[s.rfind('\n', 0, a)+1:a] + r + s[b:s.find('\n', b)]).strip()[:160]}
    if '***' not in out: res['result'] = 'survived'
    else:
        e = re.findall(r'File "\./theories/(\w+\.v)", line (\d+), characters [\d-]+:\nError', out)
        if not e: res['result'] = 'timeout'; res['by'] = (re.findall(r'\[(?:[^\]]*: )?(theories/\w+)\.vo\] Error', out) or ['?'])[0]
        else:
            g, l = e[-1]; src = open(f'{WORK}/theories/{g}').read().split('\n')[:int(l)]
            h = [x for x in src if re.match(r"\s*(Lemma|Theorem|Example|Definition|Fixpoint|Corollary|Fact|Record|Instance|Program)\b", x)]
            w = re.findall(r"(Lemma|Theorem|Example|Definition|Fixpoint|Corollary|Fact|Record|Instance)\s+([\w']+)", h[-1])[0] if h else ('?', '?')
            if w[0] in ('Definition', 'Fixpoint', 'Record', '?'): res['result'] = 'invalid'
            else: res['result'] = 'killed'
            res['by'] = f'{g[:-2]}.{w[1]}'
    res['seconds'] = round(time.time() - t0)
    open(LOG, 'a').write(json.dumps(res) + '\n')

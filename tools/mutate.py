#!/usr/bin/env python3
"""Mutation tests for the theorems.

usage: mutate.py edits.json out.jsonl      (edits: list of {file, def, old, new, claim[, nth]})

Each edit is applied to one model definition in a scratch copy and the copy is rebuilt.  A lemma whose proof no longer
goes through is admitted (in the scratch copy only) and the build goes on, so that in the end the references between the
lemmas tell, for every property theorem, whether it still rests on complete proofs (it survived) or on an admitted lemma
(it failed).
"""
import json, os, re, shutil, subprocess, sys
SRC = os.environ.get('MUTSRC', '/tmp/mutsrc/rocq')   # a built snapshot of /verif/rocq
WORK = os.environ.get('MUTWORK', '/tmp/mutw/rocq')
USING = os.environ.get('MUTUSING', '/tmp/mutw/using.json')
HEAD = re.compile(r'^\s*(?:Local |Global |#\[\w+\] )?(Theorem|Lemma|Example|Corollary|Fact|Remark)\s+(\w+)', re.M)

def sh(cmd, **k):
    return subprocess.run(cmd, capture_output=True, text=True, **k)

def files():
    return [l.strip() for l in open(SRC + '/_CoqProject') if l.strip().endswith('.v')]

def using():
    """section variables each proof uses, so that an admitted lemma keeps its arity"""
    if os.path.exists(USING) and os.path.getmtime(USING) > max(os.path.getmtime(f'{SRC}/{f}') for f in files()):
        return json.load(open(USING))
    d = USING + '.d'
    shutil.rmtree(d, ignore_errors=True); shutil.copytree(SRC, d)
    res = {}
    for f in files():
        if not re.search(r'^\s*Section ', open(f'{SRC}/{f}').read(), re.M): continue
        out = sh(['coqc', '-Q', 'theories', 'Verif', '-set', 'Suggest Proof Using', f], cwd=d)
        txt = out.stdout + out.stderr
        for m in re.finditer(r'The proof of (\w+)\s+should start with one of the following commands:\s*(Proof using[^.]*\.)', txt):
            res[f"{f[9:-2]}.{m.group(1)}"] = re.sub(r'\s+', ' ', m.group(2))
    json.dump(res, open(USING, 'w'))
    return res

def span(src, line):
    """the lemma around a line: (name, start of proof, end of proof)"""
    pos = sum(len(l) + 1 for l in src.split('\n')[:line - 1])
    last = None
    for m in HEAD.finditer(src):
        if m.start() > pos + 1 and src[pos:m.start()].strip(): break
        last = m
    if not last: return None
    p = re.compile(r'\bProof\b[^.]*\.').search(src, last.end())
    q = re.compile(r'\b(Qed|Defined)\.').search(src, last.end())
    if not p or not q or q.end() < pos - 2000 and False: return None
    if p.start() > q.start(): return None
    if q.end() < pos: return None
    return last.group(2), p.start(), q.end()

def tainted(admitted):
    """the names that rest on an admitted lemma, by the references the .glob files record (the development has no hints)"""
    uses = {}
    for f in files():
        m, cur = f[9:-2], None
        for l in open(f'{WORK}/theories/{m}.glob', errors='replace'):
            w = l.split()
            if not w: continue
            if w[0] == 'R' or re.match(r'R\d', w[0]):
                if cur and len(w) > 3 and w[1].startswith('Verif.'):
                    uses.setdefault((w[1][6:], w[3].split('.')[-1]), set()).add((m, cur))
            elif w[0] in ('prf', 'def', 'ind', 'rec', 'thm', 'lem', 'ex', 'scheme') and len(w) > 3: cur = w[3]
    bad, todo = set(), [tuple(a.split('.')) for a in admitted]
    while todo:
        x = todo.pop()
        if x in bad: continue
        bad.add(x); todo += uses.get(x, ())
    return bad

def run(e, us):
    if os.path.exists(WORK): shutil.rmtree(WORK)
    shutil.copytree(SRC, WORK, copy_function=shutil.copy2)
    p = f"{WORK}/theories/{e['file']}"
    s = open(p).read()
    if e['old'] not in s:
        print('NOT FOUND', e['file'], e['old'][:70], flush=True); return None
    idx = -1
    for _ in range(e.get('nth', 0) + 1): idx = s.index(e['old'], idx + 1)
    open(p, 'w').write(s[:idx] + e['new'] + s[idx + len(e['old']):])
    for f in os.listdir(WORK + '/theories'):
        if re.match(r'P_\w+\.v$', f):
            q = f'{WORK}/theories/{f}'
            t = re.sub(r'^Print Assumptions.*$', '', open(q).read(), flags=re.M)
            open(q, 'w').write(t)
    admitted, note, tries = [], '', 0
    while True:
        tries += 1
        r = sh(['timeout', '1800', 'make', '-k', '-j' + os.environ.get('MUTJ', '3')], cwd=WORK)
        out = r.stdout + r.stderr
        if r.returncode == 0: break
        todo = {}
        for m in re.finditer(r'File "\./theories/(\w+)\.v", line (\d+), characters [^\n]*\nError', out):
            todo.setdefault(m.group(1), int(m.group(2)))
        if not todo or tries > 150:
            note = 'build stopped: ' + out[-300:]; break
        bad = False
        for f, ln in todo.items():
            fp = f'{WORK}/theories/{f}.v'
            src = open(fp).read()
            sp = span(src, ln)
            if not sp:
                note = f'{f}.v:{ln} does not typecheck'; bad = True; break
            name, a, b = sp
            u = us.get(f'{f}.{name}', 'Proof.')
            body = u + ' Admitted.'
            if body in src[a:b + 12]:
                note = f'{f}.{name} repeatedly failing'; bad = True; break
            open(fp, 'w').write(src[:a] + body + src[b:])
            admitted.append(f'{f}.{name}')
        if bad: break
    mods = [f[9:-2] for f in files()]
    pm = [m for m in mods if m.startswith('P_')]
    th = []
    for m in pm: th += re.findall(r'^Theorem (\w+)', open(f'{WORK}/theories/{m}.v').read(), re.M)
    failed, held = [], []
    if not note:
        bad = tainted(admitted)
        for m in pm:
            for t in re.findall(r'^Theorem (\w+)', open(f'{WORK}/theories/{m}.v').read(), re.M):
                (failed if (m, t) in bad else held).append(t)
    else:
        failed = ['(build stopped)']
    ex = [a for a in admitted if a.startswith('P_') and 'xample' in a]
    return dict(definition=f"{e['file'][:-2]}.{e['def']}", edit=f"{e['old'].strip()}  ->  {e['new'].strip()}",
                claim_broken=e['claim'], theorems_failed=failed, held=held, lemmas_failed=admitted, examples_failed=ex, note=note)

def main():
    us = using()
    for e in json.load(open(sys.argv[1])):
        rec = run(e, us)
        if not rec: continue
        with open(sys.argv[2], 'a') as o: o.write(json.dumps(rec) + '\n')
        print(rec['definition'], '|', rec['claim_broken'], '|', len(rec['theorems_failed']), 'failed |', rec['lemmas_failed'][:6], rec['note'], flush=True)
main()

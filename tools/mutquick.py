#!/usr/bin/env python3
"""Quick mutation tests.     usage: mutquick.py edits.json out.jsonl      (edits as for mutate.py)

Instead of rebuilding everything, only the files that mention the edited definition are rebuilt, nearest first, until a
lemma breaks on which a theorem of the claim (or any, if no claim is named) rests.  theorems_failed lists the theorems that rest on the lemmas broken so
far (there may be more).  If nothing breaks, mutate.py should be run on the edit.
"""
import json, os, re, shutil, subprocess, sys
SRC = os.environ.get('MUTSRC', '/tmp/mutsrc/rocq')
WORK = os.environ.get('MUTWORK', '/tmp/mutq/rocq')
USING = os.environ.get('MUTUSING', '/tmp/mutw/using.json')
J = os.environ.get('MUTJ', '2')
sys.argv, args = [sys.argv[0], os.devnull], sys.argv[1:]
src = open(os.path.join(os.path.dirname(os.path.abspath(__file__)), 'mutate.py')).read()
ns = {}
exec(src[:src.rindex('\nmain()')], ns)
span, files = ns['span'], ns['files']

def sh(cmd, **k):
    return subprocess.run(cmd, capture_output=True, text=True, **k)

mods = [f[9:-2] for f in files()]
deps = {}
for l in sh(['coqdep', '-Q', 'theories', 'Verif'] + files(), cwd=SRC).stdout.split('\n'):
    m = re.match(r'theories/(\w+)\.vo\b.*?: (.*)', l)
    if m: deps[m.group(1)] = [x for x in re.findall(r'theories/(\w+)\.vo\b', m.group(2))]
closure = {}
def clos(m):
    if m not in closure:
        c = {m}
        for d in deps.get(m, []): c |= clos(d)
        closure[m] = c
    return closure[m]
for m in mods: clos(m)

uses, refs, thms = {}, {}, []
for m in mods:
    cur = None
    for l in open(f'{SRC}/theories/{m}.glob', errors='replace'):
        w = l.split()
        if not w: continue
        if re.match(r'R\d', w[0]):
            if len(w) > 3 and w[1].startswith('Verif.'):
                k = (w[1][6:], w[3].split('.')[-1])
                refs.setdefault(k, set()).add(m)
                if cur: uses.setdefault(k, set()).add((m, cur))
        elif w[0] in ('prf', 'def', 'ind', 'rec', 'thm', 'lem', 'ex', 'scheme') and len(w) > 3: cur = w[3]
    if m.startswith('P_'):
        thms += [(m, t) for t in re.findall(r'^Theorem (\w+)', open(f'{SRC}/theories/{m}.v').read(), re.M)]

def taint(admitted):
    bad, todo = set(), [tuple(a.split('.')) for a in admitted]
    while todo:
        x = todo.pop()
        if x in bad: continue
        bad.add(x); todo += uses.get(x, ())
    return bad

def run(e, us):
    shutil.rmtree(WORK, ignore_errors=True)
    shutil.copytree(SRC, WORK, copy_function=shutil.copy2)
    p = f"{WORK}/theories/{e['file']}"
    s = open(p).read()
    at = re.search(r'^\s*(?:Program )?(?:Definition|Fixpoint|with|Lemma) ' + re.escape(e['def']) + r'\b', s, re.M)
    idx = at.start() if at else 0
    try:
        for _ in range(e.get('nth', 0) + 1): idx = s.index(e['old'], idx + (1 if _ else 0))
    except ValueError:
        print('NOT FOUND', e['file'], e['def'], e['old'][:70], flush=True); return None
    open(p, 'w').write(s[:idx] + e['new'] + s[idx + len(e['old']):])
    me = e['file'][:-2]
    # the model definitions built from the edited one, and the files that mention any of them
    defs, todo = set(), [(me, e['def'])]
    while todo:
        x = todo.pop()
        if x in defs: continue
        defs.add(x); todo += [y for y in uses.get(x, ()) if re.match(r'M[A-Z]', y[0])]
    first = refs.get((me, e['def']), set())
    tgt = [m for m in set().union(*(refs.get(x, set()) for x in defs)) if m != me]
    tgt.sort(key=lambda m: (m not in first, m.startswith('P_'), 'Samples' in m, sum(1 for c in closure[m] if me in closure[c])))
    want = re.findall(r'C\d+', e['claim'])
    admitted, note, tries, bad = [], '', 0, set()
    def enough():
        f = [t for k, t in thms if (k, t) in bad]
        return all(any(t.startswith(w + '_') for t in f) for w in want) if want else bool(f)
    for m in [me] + tgt:
        if bad and m not in first and m != me: break   # noticed, though not by the theorems expected
        while True:
            tries += 1
            r = sh(['timeout', '1500', 'make', '-k', '-j' + J, f'theories/{m}.vo'], cwd=WORK)
            out = r.stdout + r.stderr
            if r.returncode == 0: break
            todo = {}
            for x in re.finditer(r'File "\./theories/(\w+)\.v", line (\d+), characters [^\n]*\nError', out):
                todo.setdefault(x.group(1), int(x.group(2)))
            if not todo or tries > 60:
                note = f'build of {m} stopped'; break
            for f, ln in todo.items():
                fp = f'{WORK}/theories/{f}.v'
                t = open(fp).read()
                sp = span(t, ln)
                if not sp: note = f'{f}.v:{ln} does not typecheck'; break
                name, a, b = sp
                body = us.get(f'{f}.{name}', 'Proof.') + ' Admitted.'
                if body in t[a:b + 12]: note = f'{f}.{name} repeatedly failing'; break
                open(fp, 'w').write(t[:a] + body + t[b:])
                admitted.append(f'{f}.{name}')
            if note: break
            bad = taint(admitted)
            if enough(): break
        bad = taint(admitted)
        if enough() or note: break
    failed = [t for k, t in thms if (k, t) in bad]
    if note and not failed: failed = ['(build stopped)']
    return dict(definition=f"{me}.{e['def']}", edit=f"{e['old'].strip()}  ->  {e['new'].strip()}", claim_broken=e['claim'],
                theorems_failed=failed, lemmas_failed=admitted, note=(note + '; ' if note else '') + 'quick run: theorems resting on the first broken lemmas')

us = json.load(open(USING))
for e in json.load(open(args[0])):
    rec = run(e, us)
    if not rec: continue
    with open(args[1], 'a') as o: o.write(json.dumps(rec) + '\n')
    want = re.findall(r'C\d+', e['claim'])
    miss = [w for w in want if not any(t.startswith(w + '_') for t in rec['theorems_failed'])]
    print('UNNOTICED' if miss or not rec['theorems_failed'] else 'ok', miss, rec['definition'], '|', rec['edit'][:80], '|', rec['claim_broken'], '|', len(rec['theorems_failed']), 'failed |', rec['lemmas_failed'][:5], rec['note'][:80], flush=True)

#!/usr/bin/env python3
"""Seeded-bug testing of the theorems.  usage: mutate.py muts.json
muts.json: list of {"file","old","new","definition","edit","claim"}.  Works in a scratch copy; every
lemma whose proof breaks is admitted there, and the property theorems resting on an admitted lemma
(per Print Assumptions) are reported.  One line per mutation is appended to seeded/LOG.jsonl."""
import json, re, os, shutil, subprocess, sys, tempfile
root = os.path.dirname(os.path.dirname(os.path.abspath(__file__)))
th = os.environ.get('MUT_SRC', os.path.join(root, 'rocq', 'theories'))  # a snapshot, while the tree is being edited
order = [l.strip() for l in open(os.environ.get('MUT_FILES', os.path.join(root, 'tools', 'files.txt'))) if l.strip()]
HEAD = re.compile(r'^\s*(Lemma|Theorem|Corollary|Fact|Example|Remark|Definition|Fixpoint|Instance)\s+(\w+)')
def deps(m):
    t = open(os.path.join(th, m + '.v')).read()
    r = set()
    for g in re.finditer(r'From Verif Require (?:Import |Export )?([\w\s]+)\.', t):
        r |= set(g.group(1).split())
    for g in re.finditer(r'(?m)^Require (?:Import |Export )?(Verif\.[\w\s.]*?)\.\s*$', t):
        r |= {x.replace('Verif.', '') for x in g.group(1).split()}
    return r
D = {m: deps(m) for m in order}
def affected(f):
    s = {f}
    for m in order:
        if D[m] & s: s.add(m)
    goal = os.environ.get('MUT_GOAL')  # only what these theorem files need
    if goal:
        need = set(goal.split())
        for m in reversed(order):
            if m in need: need |= D[m]
        s &= need
    return [m for m in order if m in s]
def run(mut):
    tmp = tempfile.mkdtemp(prefix='mut')
    for m in order:
        for e in ('.v', '.vo'):
            shutil.copy2(os.path.join(th, m + e), tmp)
    p = os.path.join(tmp, mut['file'] + '.v')
    t = open(p).read()
    if t.count(mut['old']) != 1:
        print('BAD PATTERN', mut['definition'], t.count(mut['old'])); shutil.rmtree(tmp); return
    open(p, 'w').write(t.replace(mut['old'], mut['new']))
    broken, hit, model_error = [], [], None
    for m in affected(mut['file']):
        p = os.path.join(tmp, m + '.v')
        while True:
            try:
                r = subprocess.run(['coqc', '-Q', '.', 'Verif', m + '.v'], cwd=tmp, capture_output=True, text=True, timeout=mut.get('timeout', 400))
                err, out, rc = r.stderr, r.stdout, r.returncode
            except subprocess.TimeoutExpired:
                model_error = 'timeout in ' + m; rc = 1; err = ''
            if rc == 0: break
            gs = re.findall(r'line (\d+), characters', err)
            lines = open(p).read().split('\n')
            g = gs[-1] if gs else None
            if not g: model_error = model_error or err[-300:]; break
            k = int(g) - 1
            while k >= 0 and not HEAD.match(lines[k]): k -= 1
            name = HEAD.match(lines[k]).group(2) if k >= 0 else None
            s = k
            while s < len(lines) and not re.search(r'\bProof\b', lines[s]):
                if s > k and HEAD.match(lines[s]): s = len(lines); break
                s += 1
            if k < 0 or s >= len(lines) or m.startswith('M_'):
                model_error = (m + ':' + str(g) + ' ' + err[-300:]); break
            e = s
            while not re.search(r'\b(Qed|Defined)\s*\.', lines[e]): e += 1
            lines[s] = re.sub(r'\bProof\b.*', 'Admitted.', lines[s])
            for j in range(s + 1, e + 1): lines[j] = ''
            open(p, 'w').write('\n'.join(lines))
            broken.append(m + '.' + name)
        else: pass
        if model_error: break
        if m.startswith('T_'):
            names = re.findall(r'^Print Assumptions (\w+)', open(p).read(), re.M)
            chunks = re.split(r'(?m)^(?=Axioms:|Closed under)', out)[1:]
            bs = [b.split('.')[1] for b in broken]
            for n, c in zip(names, chunks):
                if n in bs or any(re.search(r'(?m)^(\w+\.)*%s\b' % b, c) for b in bs): hit.append(n)
    print(mut['definition'], '|', mut['edit'], '| broken:', broken, '| theorems:', hit, '| error:', model_error)
    if not model_error:
        json.dump(dict(definition=mut['definition'], edit=mut['edit'], claim=mut['claim'], failed_lemmas=broken,
                       failed_theorems=hit, tightened=mut.get('tightened', [])), open('/tmp/mutlast.json', 'w'))
        with open(os.path.join(root, 'seeded', 'LOG.jsonl'), 'a') as f:
            f.write(json.dumps(dict(definition=mut['definition'], edit=mut['edit'], claim=mut['claim'],
                    failed_lemmas=broken, failed_theorems=hit, tightened=mut.get('tightened', []))) + '\n')
    shutil.rmtree(tmp)
done = {(d['definition'], d['edit']) for d in map(json.loads, open(os.path.join(root, 'seeded', 'LOG.jsonl')))}
for mu in json.load(open(sys.argv[1])):
    if (mu['definition'], mu['edit']) not in done: run(mu)

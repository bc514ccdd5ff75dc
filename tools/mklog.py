#!/usr/bin/env python3
"""seeded/LOG.jsonl from the harness results (/tmp/w/results.jsonl) and the mutant lists in seeded/."""
import json, re, glob, importlib.util, os
M = {}
for f in sorted(glob.glob('/verif/seeded/mutants*.py')):
    s = importlib.util.spec_from_file_location('m', f); mod = importlib.util.module_from_spec(s); s.loader.exec_module(mod)
    for m in mod.M: M[m['id']] = m
notes = json.load(open('/verif/seeded/notes.json')) if os.path.exists('/verif/seeded/notes.json') else {}
def definition(m):
    src = open(f"/verif/rocq/theories/{m['file']}.v").read()
    i = src.find(m['old'])
    if i < 0: return None
    best = None
    for k in re.finditer(r'^\s*(?:#\[[^\]]*\]\s*)?(?:Definition|Fixpoint|Instance|Record|Inductive|Let)\s+([\w\']+)', src, re.M):
        if k.start() <= i + len(m['old']) - 1 and (k.start() <= i or k.start() - i < 5): best = k.group(1)
    return best
res = {}
for l in open('/tmp/w/results.jsonl'):
    r = json.loads(l); res.setdefault(r['id'], []).append(r)
out = []
for i, rs in res.items():
    m = M.get(i)
    if not m: continue
    for k, r in enumerate(rs):
        n = notes.get(i, {})
        last = k == len(rs) - 1
        if r.get('error'): verdict = 'harness: ' + r['error'][:300]
        elif n.get('verdict') and last: verdict = n['verdict']
        elif not (r['direct'] or r['indirect']): verdict = 'survived'
        else: verdict = 'caught'
        out.append(dict(id=i, definition=f"{m['file']}.{definition(m)}", edit=m['note'], old=m['old'], new=m['new'], claim=m['breaks'],
            theorems_failed=r.get('direct', []), lemmas_failed=r.get('lemmas', []), theorems_resting_on_failed_lemmas=r.get('indirect', []),
            verdict=verdict, theorems_tightened=n.get('tightened', [])))
def classify(x):
    d, t, n = x['definition'], x['text'], x['new']
    if d == 'ext': return 'equivalent: renames a constructor argument'
    if 'AttributeError' in t: return 'unreachable: the method of one class on an object of another'
    if d in ('iadd_w',) or (d == 'update_memory_x' and 'ValueError' in t) or (d == 'learning_rule' and x['line'] == 212):
        return 'survived at the time: only a direct call of learning_rule with a wrong length gets there; now covered by C95 (see J07-J10)'
    if d in ('hist_set', 'run'): return 'unreachable: a numeric history is never None'
    if d == 'update_memory_d': return 'unreachable: the index is always inside the memory'
    if d == 'run_body_AP': return 'equivalent: default of nth on a list that is never empty'
    if d == 'not_alpha': return 'equivalent on natural numbers'
    if d in ('le_awd', 'le_swd'): return 'equivalent: rows before m are never used'
    if d == 'iadd1': return 'unreachable: the increment always has the length of the weights'
    if d == 'mvdot': return 'unreachable: the shapes always agree'
    return 'unclassified'
A = '/verif/seeded/auto_results.jsonl'
if os.path.exists(A):
    for k, l in enumerate(open(A)):
        x = json.loads(l)
        if x['verdict'] == 'invalid': continue
        out.append(dict(id=f"A{k:03d}", definition=f"{x['file']}.{x['definition']}", edit=f"line {x['line']}: {x['old']} -> {x['new']} in: {x['text']}",
            claim='automatic mutation', theorems_failed=[x['first']] if x['verdict'] == 'killed' else [],
            verdict='caught' if x['verdict'] == 'killed' else classify(x), theorems_tightened=[]))
with open('/verif/seeded/LOG.jsonl', 'w') as o:
    for e in out: o.write(json.dumps(e) + '\n')
print(len(out), 'lines;', [e['id'] for e in out if e['verdict'] != 'caught'])

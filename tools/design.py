"""Regenerates /verif/DESIGN.md from the text below, MANIFEST.json and
tools/assumptions.json (the output of Print Assumptions for every theorem)."""
import json, os
R = os.path.dirname(os.path.dirname(os.path.abspath(__file__)))
M = {c['property']: c for c in json.load(open(R + '/MANIFEST.json'))['claims']}
T = {json.loads(l)['id']: json.loads(l)['title'] for l in open(R + '/properties.jsonl')}
A = json.load(open(R + '/tools/assumptions.json'))
HEAD = open(R + '/tools/design_head.md').read()
PLAN = {}
for l in open(R + '/tools/design_plan.txt'):
    if l.strip():
        k, v = l.split(' ', 1)
        PLAN[k] = v.strip()
SH = {'functional_extensionality_dep': 'F', 'sig_forall_dec': 'D', 'sig_not_dec': 'N'}
out = [HEAD, '\n## Property by property\n']
for k in sorted(T):
    c = M[k]
    out.append(f"### {k} {T[k]} ({c['status']})\n\n{PLAN.get(k, '')}\n")
    if c.get('note'):
        out.append(f"Note: {c['note']}\n")
    out.append('Theorems: ' + ', '.join('`' + t + '`' for t in c['theorems']) + '.\n')
out.append('\n## Print Assumptions, theorem by theorem\n\nF = functional_extensionality_dep, D = ClassicalDedekindReals.sig_forall_dec, N = ClassicalDedekindReals.sig_not_dec, `-` = closed under the global context.\n\n```\n')
for k in sorted(T):
    for t in M[k]['theorems']:
        a = A.get(t)
        out.append(f"{t:45s} {'?' if a is None else ''.join(sorted(SH.get(x, x) for x in a)) or '-'}")
out.append('```\n')
open(R + '/DESIGN.md', 'w').write('\n'.join(out))
miss = [k for k in T if k not in PLAN]
print('no plan:', miss, 'no assumptions:', [t for c in M.values() for t in c['theorems'] if t not in A])

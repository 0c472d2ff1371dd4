#!/usr/bin/env python3
"""Write ASSUMPTIONS.md: what Print Assumptions lists for each property theorem (run after a build in rocq/)."""
import re, glob, os, subprocess, tempfile
root = os.path.dirname(os.path.dirname(os.path.abspath(__file__)))
th = os.path.join(root, 'rocq', 'theories')
names = []
for f in sorted(glob.glob(th + '/Prop_*.v')):
    for m in re.finditer(r'^\s*(?:Theorem|Lemma|Corollary)\s+(C\d\d\d?_[\w\']*)', open(f).read(), re.M):
        names.append((os.path.basename(f)[:-2], m[1]))
names.sort(key=lambda x: (int(re.match(r'C(\d+)', x[1])[1]), x[0]))
short = {'ClassicalDedekindReals.sig_forall_dec': 'D', 'ClassicalDedekindReals.sig_not_dec': 'N',
         'FunctionalExtensionality.functional_extensionality_dep': 'F', 'Classical_Prop.classic': 'C'}
rows = {}
with tempfile.TemporaryDirectory() as d:
    mods = sorted({m for m, _ in names})
    src = ''.join(f'From Verif Require {m}.\n' for m in mods)
    for m, n in names:
        src += f'Goal True. idtac "@@ {m}.{n}". Abort.\nPrint Assumptions {m}.{n}.\n'
    open(d + '/A.v', 'w').write(src)
    out = subprocess.run(['coqc', '-R', th, 'Verif', 'A.v'], cwd=d, capture_output=True, text=True)
    assert out.returncode == 0, out.stderr[-2000:]
    for blk in out.stdout.split('@@ ')[1:]:
        head, body = blk.split('\n', 1)
        if 'Closed under the global context' in body:
            rows[head.strip()] = []
        else:
            rows[head.strip()] = sorted(set(re.findall(r'^([A-Za-z_][\w.\']*)\s*(?::|$)', body, re.M)) - {'Axioms'})
other = sorted({a for v in rows.values() for a in v} - set(short))
with open(root + '/ASSUMPTIONS.md', 'w') as o:
    o.write('# Axioms used by each property theorem (Print Assumptions)\n\nAll are axioms of the standard library:\n\n')
    for k, v in short.items():
        o.write(f'* {v} = `{k}`\n')
    for k in other:
        o.write(f'* `{k}`\n')
    o.write('\n`-` means closed under the global context.\n\n| theorem | file | axioms |\n|---|---|---|\n')
    for m, n in names:
        v = rows[f'{m}.{n}']
        o.write(f"| {n} | {m}.v | {' '.join(short.get(a, a) for a in v) or '-'} |\n")
print(len(rows), 'theorems; axioms outside the four:', other)

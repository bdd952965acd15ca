#!/usr/bin/env python3
"""Fill in the list of assumptions at the end of DESIGN.md (needs a build in rocq/)."""
import os, re, subprocess, tempfile
root = os.path.dirname(os.path.dirname(os.path.abspath(__file__)))
theories = os.path.join(root, 'rocq', 'theories')
groups = []
for f in sorted(os.listdir(theories)):
    if f.startswith('Thm_') and f.endswith('.v'):
        names = re.findall(r'^Theorem (\w+)', open(os.path.join(theories, f)).read(), re.M)
        groups.append((f[:-2], names))
with tempfile.TemporaryDirectory() as d:
    src = os.path.join(d, 'q.v')
    with open(src, 'w') as o:
        for f, names in groups:
            o.write(f'From Verif Require {f}.\n')
            for n in names:
                o.write(f'Print Assumptions Verif.{f}.{n}.\n')
    out = subprocess.run(['coqc', '-Q', theories, 'Verif', src], capture_output=True, text=True, check=True).stdout
closed = out.count('Closed under the global context')
total = sum(len(n) for _, n in groups)
rest = [l for l in out.splitlines() if l.strip() and 'Closed under the global context' not in l]
p = os.path.join(root, 'DESIGN.md')
s = open(p).read()
head = '## Print Assumptions'
s = s.split(head)[0].rstrip() + '\n\n' + head + '\n\n'
if closed == total and not rest:
    s += f'For each of the {total} theorems below `Print Assumptions` prints "Closed under the global context": no\naxioms, neither of the standard library nor our own.\n\n'
else:
    s += f'{closed} of {total} closed; the rest:\n\n```\n' + '\n'.join(rest) + '\n```\n\n'
for f, names in groups:
    s += f'* `{f}.v`: ' + ', '.join(f'`{n}`' for n in names) + '\n'
open(p, 'w').write(s)
print(closed, 'of', total, 'closed')

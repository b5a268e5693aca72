"""Regenerates the section "Assumptions per theorem" of DESIGN.md.

Compiles a copy of every property file (the other files must be built) and pairs the output of its
Print Assumptions commands with the theorem names."""
import glob, os, re, subprocess, sys, tempfile

root = os.path.dirname(os.path.dirname(os.path.abspath(__file__)))
th = os.path.join(root, 'rocq', 'theories')
groups = {}
for f in sorted(glob.glob(os.path.join(th, 'P_*.v'))):
    names = re.findall(r'^Print Assumptions (\w+)\.', open(f).read(), re.M)
    with tempfile.TemporaryDirectory() as d:
        out = subprocess.run(['coqc', '-Q', th, 'Verif', '-o', os.path.join(d, os.path.basename(f) + 'o'), f],
                             capture_output=True, text=True, cwd=d)
    if out.returncode:
        sys.exit(out.stderr)
    blocks = []
    for line in out.stdout.split('\n'):
        if line.startswith('Closed under the global context'):
            blocks.append([])
        elif line.startswith('Axioms:'):
            blocks.append([])
        else:
            m = re.match(r'^([A-Za-z_][\w.]*)\s*(:|$)', line)
            if m and blocks:
                blocks[-1].append(m.group(1))
    assert len(blocks) == len(names), (f, len(blocks), len(names))
    for n, b in zip(names, blocks):
        groups.setdefault(tuple(sorted(set(b))), []).append(n)
lines = ['## Assumptions per theorem', '',
         'Output of `Print Assumptions`, grouped (written by tools/assumptions.py).', '']
for key in sorted(groups, key=len):
    lines.append('**' + ('Closed under the global context' if not key else ', '.join(f'`{k}`' for k in key)) + '**')
    lines.append('')
    lines.append(', '.join(sorted(groups[key])) + '.')
    lines.append('')
p = os.path.join(root, 'DESIGN.md')
s = open(p).read()
i = s.find('## Assumptions per theorem')
if i >= 0:
    s = s[:i]
open(p, 'w').write(s.rstrip('\n') + '\n\n' + '\n'.join(lines))
print({len(k): len(v) for k, v in groups.items()})

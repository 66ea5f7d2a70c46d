"""Collects the output of Print Assumptions for the theorems in Props*.v (run in rocq/ after make) and
prints the table of DESIGN.md section 5."""
import glob, re, subprocess, os
groups = {}
for f in sorted(glob.glob('theories/Props*.v')):
    src = open(f).read()
    names = re.findall(r'^Print Assumptions (\w+)\.', src, re.M)
    out = subprocess.run(['coqc', '-Q', 'theories', 'Verif', '-o', '/tmp/ax/' + os.path.basename(f) + 'o', f], capture_output=True, text=True)
    assert out.returncode == 0, out.stderr
    blocks = re.split(r'^(?=Closed under the global context|Axioms:)', out.stdout, flags=re.M)[1:]
    assert len(blocks) == len(names), (f, len(blocks), len(names))
    for n, b in zip(names, blocks):
        if b.startswith('Closed'):
            ax = ()
        else:
            ax = tuple(sorted(set(x.split('.')[-1] for x in re.findall(r'^([A-Za-z_][\w.]*) :', b, re.M)) | set(x.split('.')[-1] for x in re.findall(r'^([A-Za-z_][\w.]*)\s*$', b, re.M))))
        groups.setdefault(ax, []).append(n)
for ax in sorted(groups, key=len):
    print('* **' + (', '.join('`%s`' % a for a in ax) if ax else 'none ("Closed under the global context")') + '**: ' + ', '.join('`%s`' % n for n in groups[ax]))

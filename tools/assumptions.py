"""python3 tools/assumptions.py DIR -- group the theorems by what Print Assumptions lists (DIR/Props_X.v.log: coqc output)
and put the result between the markers in DESIGN.md"""
import re, sys, glob, os
groups = {}
for src in sorted(glob.glob('rocq/theories/Props_*.v')):
    names = re.findall(r'^Print Assumptions (\w+)\.', open(src).read(), re.M)
    log = open(os.path.join(sys.argv[1], os.path.basename(src) + '.log')).read()
    blocks = re.split(r'^(?=Axioms:|Closed under the global context)', log, flags=re.M)[1:]
    assert len(names) == len(blocks), (src, len(names), len(blocks))
    for n, b in zip(names, blocks):
        axs = tuple(sorted(re.findall(r'^([\w.]+) ?(?::|$)', b, re.M))) if b.startswith('Axioms') else ()
        axs = tuple(a for a in axs if a != 'Axioms')
        groups.setdefault(axs, []).append(n)
out = []
for axs in sorted(groups, key=len):
    out.append('* %s (%d theorems): %s' % (' + '.join('`%s`' % a.split('.')[-1] for a in axs) or 'no axioms at all', len(groups[axs]), ', '.join(groups[axs])))
text = '\n'.join(out)
s = open('DESIGN.md').read()
a, b = '<!-- assumptions -->', '<!-- end assumptions -->'
i, j = s.index(a) + len(a), s.index(b)
open('DESIGN.md', 'w').write(s[:i] + '\n' + text + '\n' + s[j:])
print({k: len(v) for k, v in groups.items()})

"""Print Assumptions for every theorem of MANIFEST.json; writes the table of DESIGN.md
between the two marker lines.  Run after the build, from anywhere."""
import json, os, re, subprocess, tempfile
root = os.path.join(os.path.dirname(os.path.abspath(__file__)), '..')
th = os.path.join(root, 'rocq', 'theories', 'Properties')
where = {}
for f in sorted(os.listdir(th)):
    if f.endswith('.v'):
        for m in re.finditer(r'^(?:Theorem|Lemma|Example|Corollary)\s+(\w+)', open(os.path.join(th, f)).read(), re.M):
            where.setdefault(m.group(1), f[:-2])
names = []
for c in json.load(open(os.path.join(root, 'MANIFEST.json')))['claims']:
    for t in c['theorems']:
        names.append(t)
mods = sorted({where[t.split('.')[-1]] for t in names})
src = 'From Verif Require ' + ' '.join('Properties.' + m for m in mods) + '.\n'
for t in names:
    src += 'Print Assumptions Verif.Properties.%s.%s.\n' % (where[t.split('.')[-1]], t.split('.')[-1])
with tempfile.TemporaryDirectory() as d:
    f = os.path.join(d, 'Ax.v'); open(f, 'w').write(src)
    out = subprocess.run(['coqc', '-Q', os.path.join(root, 'rocq', 'theories'), 'Verif', f], capture_output=True, text=True)
if out.returncode:
    raise SystemExit(out.stderr)
blocks = re.split(r'(?m)^(?=Closed under|Axioms:)', out.stdout)[1:]
assert len(blocks) == len(names), (len(blocks), len(names))
groups = {}
for t, b in zip(names, blocks):
    ax = tuple(sorted(set(re.findall(r'(?m)^([A-Za-z_][\w.]*)\s*(?::|$)', b)) - {'Axioms', 'Closed'})) if b.startswith('Axioms') else ()
    groups.setdefault(ax, []).append(t)
txt = ''
for ax, ts in sorted(groups.items(), key=lambda p: len(p[0])):
    txt += '* %s: %s\n' % ('no axioms (closed under the global context)' if not ax else ', '.join('`%s`' % a for a in ax),
                           'all other theorems of `MANIFEST.json` (%d)' % len(ts) if not ax else ', '.join('`%s`' % t for t in ts))
p = os.path.join(root, 'DESIGN.md')
s = open(p).read()
a, b = '<!-- axioms -->\n', '<!-- end axioms -->'
i, j = s.index(a) + len(a), s.index(b)
open(p, 'w').write(s[:i] + txt + s[j:])
print(txt)

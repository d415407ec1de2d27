#!/usr/bin/env python3
"""Assemble DESIGN.md from tools/design, MANIFEST.json, properties.jsonl and the
output of tools/axioms.py (run after a build)."""
import json, os, subprocess, sys, textwrap
here = os.path.dirname(os.path.abspath(__file__))
root = os.path.join(here, '..')
rd = lambda f: open(os.path.join(here, 'design', f)).read()
out = rd('head.md').replace('@FILES@', rd('files.md').rstrip())
how = json.loads(rd('how.json'))
man = {c['property']: c for c in json.load(open(os.path.join(root, 'MANIFEST.json')))['claims']}
props = sorted((json.loads(l) for l in open(os.path.join(root, 'properties.jsonl'))), key=lambda d: d['id'])
w = lambda s: textwrap.fill(s, 80, initial_indent='  ', subsequent_indent='  ', break_long_words=False, break_on_hyphens=False)
out += '## 4. Properties\n\nFor each property: what is modelled and how it is proved; the theorems; what is\nmissing or refuted.\n\n'
for d in props:
    c = man[d['id']]
    if d['id'] not in how:
        sys.exit('no text for ' + d['id'])
    out += '- **%s** %s (%s)\n' % (d['id'], d['title'], c['status'])
    out += w(how[d['id']]) + '\n' + w('Theorems: ' + ', '.join('`%s`' % t for t in c['theorems']) + '.') + '\n'
    if c['note']:
        out += w(c['note']) + '\n'
out += '\n## 5. Assumptions printed per theorem\n\n'
ax = subprocess.run([sys.executable, os.path.join(here, 'axioms.py')], capture_output=True, text=True, check=True).stdout
for l in ax.splitlines():
    out += textwrap.fill(l, 80, subsequent_indent='  ', break_long_words=False, break_on_hyphens=False) + '\n'
out += '\nAll are axioms of the Coq standard library (`Coq.Reals`, `Coq.Logic`).\n\n' + rd('findings.md')
open(os.path.join(root, 'DESIGN.md'), 'w').write(out)

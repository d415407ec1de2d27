#!/usr/bin/env python3
"""Print, for section 5 of DESIGN.md, what Print Assumptions says beneath each
property theorem.  Run after a build; compiles copies of the *Props.v files in a
temporary directory."""
import glob, os, re, subprocess, sys, tempfile
root = os.path.join(os.path.dirname(os.path.abspath(__file__)), '..', 'rocq')
tmp = tempfile.mkdtemp()
groups = {}
for f in sorted(glob.glob(os.path.join(root, 'theories', '*Props.v'))):
    src = open(f).read()
    names = re.findall(r'^Print Assumptions (\S+)\.', src, re.M)
    g = os.path.join(tmp, os.path.basename(f))
    open(g, 'w').write(src)
    out = subprocess.run(['coqc', '-Q', os.path.join(root, 'theories'), 'Verif', g],
                         capture_output=True, text=True).stdout
    blocks = re.findall(r'(Closed under the global context|Axioms:\n(?:(?!Axioms:|Closed under).*\n?)*)', out)
    if len(blocks) != len(names):
        sys.exit('%s: %d theorems, %d answers' % (f, len(names), len(blocks)))
    for n, b in zip(names, blocks):
        ax = tuple(sorted(set(re.findall(r'^([\w.]+)\s*(?::|$)', b, re.M)) - {'Axioms', 'Closed'})) \
            if b.startswith('Axioms') else ()
        groups.setdefault(ax, []).append(n)
def key(n):
    return (int(re.match(r'C(\d+)', n).group(1)), n)
for ax in sorted(groups, key=lambda a: (len(a), a)):
    print('* ' + (', '.join('`%s`' % a for a in ax) if ax else 'no axioms ("Closed under the global context")') + ':')
    print('  ' + ', '.join(sorted(groups[ax], key=key)) + '.')

"""Write MANIFEST.json from the theorem names in rocq/theories/*Props.v.

A theorem belongs to property Cnn when its name starts with `Cnn_`.  Status and
note come from NOTES; a property without an entry is 'proved'.
"""
import glob, json, os, re
here = os.path.dirname(os.path.dirname(os.path.abspath(__file__)))
NOTES = json.load(open(os.path.join(here, 'tools', 'notes.json')))
names = {}
for f in sorted(glob.glob(os.path.join(here, 'rocq/theories/*Props.v'))):
    for m in re.finditer(r'^(?:Theorem|Corollary)\s+((C\d\d+)_\w+)', open(f).read(), re.M):
        names.setdefault(m.group(2), []).append(m.group(1))
claims = []
for line in open(os.path.join(here, 'properties.jsonl')):
    p = json.loads(line)
    n = NOTES.get(p['id'], {})
    if p['id'] not in names and n.get('status') != 'not_applicable':
        continue
    claims.append({'property': p['id'], 'status': n.get('status', 'proved'),
                   'theorems': names.get(p['id'], []), 'note': n.get('note', '')})
json.dump({'claims': claims}, open(os.path.join(here, 'MANIFEST.json'), 'w'), indent=1)
print(len(claims), 'claims', sum(len(c['theorems']) for c in claims), 'theorems')

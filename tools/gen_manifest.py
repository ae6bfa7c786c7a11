"""Writes MANIFEST.json: for each property of properties.jsonl, the theorems named Cxx_* in rocq/theories/Props*.v."""
import json, re, glob, os
root = os.path.dirname(os.path.dirname(os.path.abspath(__file__)))
thms = {}
for f in sorted(glob.glob(root + '/rocq/theories/Props*.v')):
    for m in re.finditer(r'^Theorem\s+(C\d+\w*)', open(f).read(), re.M):
        thms.setdefault(m.group(1).split('_')[0], []).append(m.group(1))
notes = json.load(open(root + '/tools/manifest_notes.json'))
claims = []
for line in open(root + '/properties.jsonl'):
    p = json.loads(line)['id']
    ts = thms.get(p, [])
    n = notes.get(p, {})
    if ts:
        status = 'partial' if any(t.endswith('_partial') for t in ts) or n.get('partial') else 'proved'
    else:
        status = 'partial'
    note = n.get('note', '' if ts else 'modelled; theorem not yet proved')
    claims.append({'property': p, 'status': status, 'theorems': ts, 'note': note})
json.dump({'claims': claims}, open(root + '/MANIFEST.json', 'w'), indent=1)
print({s: sum(c['status'] == s for c in claims) for s in ('proved', 'partial', 'not_applicable')})

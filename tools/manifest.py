# Regenerates /verif/MANIFEST.json from the theorem names cNN_... in rocq/theories/Prop*.v.
import glob, json, os, re
root = os.path.dirname(os.path.dirname(os.path.abspath(__file__)))
ids = [json.loads(l)['id'] for l in open(root + '/properties.jsonl') if l.strip()]
names = {}
for f in sorted(glob.glob(root + '/rocq/theories/Prop*.v')):
    for n in re.findall(r'^\s*(?:Theorem|Lemma|Corollary)\s+(c(\d\d\d?)_\w+)', open(f).read(), re.M):
        names.setdefault('C' + n[1], []).append((n[0], os.path.basename(f)))
notes = json.load(open(root + '/tools/notes.json'))
claims = []
for i in ids:
    ts = [n for n, _ in names.get(i, []) if not re.search(r'_check\d*$', n)]
    fs = sorted({f for _, f in names.get(i, [])})
    if not ts:
        print('no theorem for', i)
        continue
    part = any(t.endswith('_partial') for t in ts)
    note = 'In ' + ', '.join(fs) + '.'
    if i in notes: note += ' ' + notes[i]
    claims.append(dict(property=i, status='partial' if part else 'proved', theorems=ts, note=note))
json.dump({'claims': claims}, open(root + '/MANIFEST.json', 'w'), indent=1)
print(len(claims), 'claims', sum(len(c['theorems']) for c in claims), 'theorems')

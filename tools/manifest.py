"""Regenerate rocq/_CoqProject and MANIFEST.json.

Theorem names are collected from the Properties files; tools/status.json holds
the status and the note of each property."""
import glob, json, os, re
root = os.path.dirname(os.path.dirname(os.path.abspath(__file__)))
files = sorted(os.path.relpath(f, root + '/rocq') for f in glob.glob(root + '/rocq/theories/*.v'))
with open(root + '/rocq/_CoqProject', 'w') as f:
    f.write('-Q theories Verif\n' + ''.join(x + '\n' for x in files))
thms = {}
for f in sorted(glob.glob(root + '/rocq/theories/Properties_*.v')):
    for m in re.finditer(r'^[ ]*Theorem ((C\d\d)\w*)', open(f).read(), re.M):
        thms.setdefault(m.group(2), []).append(m.group(1))
status = json.load(open(root + '/tools/status.json'))
claims = []
for line in open(root + '/properties.jsonl'):
    if not line.strip():
        continue
    i = json.loads(line)['id']
    if i in status:
        st, note = status[i]
        if st != 'not_applicable' and i not in thms:
            print('no theorem for', i)
            continue
        claims.append({'property': i, 'status': st, 'theorems': thms.get(i, []), 'note': note})
    elif i in thms:
        print('no status for', i)
json.dump({'claims': claims}, open(root + '/MANIFEST.json', 'w'), indent=1)
print(len(claims), 'claims', sum(len(c['theorems']) for c in claims), 'theorems')

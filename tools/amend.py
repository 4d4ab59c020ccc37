"""usage: amend.py <<EOF  lines: ID|status|note|statement-or-empty   -- updates status.json and properties.jsonl"""
import json, sys
s = json.load(open('tools/status.json'))
P = [json.loads(l) for l in open('properties.jsonl')]
for line in sys.stdin.read().strip().split('\n'):
    i, st, note, stmt = line.split('|', 3)
    s[i] = [st, note]
    for d in P:
        if d['id'] == i and stmt: d['statement'] = (d['statement'].rstrip('. ') + '. ' + stmt[1:].strip()) if stmt.startswith('+') else stmt
json.dump(dict(sorted(s.items())), open('tools/status.json', 'w'), indent=1)
open('properties.jsonl', 'w').write('\n'.join(json.dumps(d, ensure_ascii=False) for d in P) + '\n')

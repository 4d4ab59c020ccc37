"""Mutation testing of the theorems.

usage: mutate.py MUTANTS.json   (a list of {file, old, new, claim, property, [count], [own]})

For every mutant: copy rocq/theories to a scratch directory, apply the edit to the model, rebuild the
files that depend on it.  A proof that no longer goes through is replaced by Admitted and the build goes on,
so that Print Assumptions under each property theorem tells exactly which property theorems rested on it.
Appends one JSON line per mutant to seeded/LOG.jsonl."""
import glob, json, os, re, shutil, subprocess, sys
ROOT = os.path.dirname(os.path.dirname(os.path.abspath(__file__)))
SRC = ROOT + '/rocq/theories'
TMP = os.environ.get('MUT', '/tmp/mut')
HEAD = re.compile(r'^\s*(?:Local |Global )?(Lemma|Theorem|Example|Corollary|Fact|Remark|Proposition|Instance)\s+([\w\']+)')

def deps():
    d = {}
    for f in glob.glob(SRC + '/*.v'):
        n = os.path.basename(f)[:-2]
        t = open(f).read()
        r = set()
        for m in re.finditer(r'From Verif Require (?:Import |Export )?([^.]*)\.', t):
            r |= set(m.group(1).split())
        d[n] = r
    return d

def order(d):
    out, seen = [], set()
    def go(n):
        if n in seen: return
        seen.add(n)
        for m in sorted(d[n]): go(m)
        out.append(n)
    for n in sorted(d): go(n)
    return out

def affected(d, root):
    s = {root}
    for n in order(d):
        if d[n] & s: s.add(n)
    return s

def coqc(n, limit):
    try:
        p = subprocess.run(['timeout', str(limit), 'coqc', '-Q', '.', 'Verif', n + '.v'], cwd=TMP, capture_output=True, text=True)
    except Exception as e:
        return 1, str(e), ''
    return p.returncode, p.stderr + '\n' + p.stdout, p.stdout

def run(mut, limit=300):
    shutil.rmtree(TMP, ignore_errors=True)
    shutil.copytree(SRC, TMP)
    f = TMP + '/' + mut['file'] + '.v'
    t = open(f).read()
    if t.count(mut['old']) != mut.get('count', 1):
        return {'error': 'pattern occurs %d times' % t.count(mut['old'])}
    open(f, 'w').write(t.replace(mut['old'], mut['new']))
    d = deps()
    aff = affected(d, mut['file'])
    if mut.get('own'):  # rebuild only what the theorems of the property named rest on
        need = [n for n in d if n.startswith('Properties') and re.search(r'(?m)^Theorem ' + mut['property'] + '_', open(TMP + '/' + n + '.v').read())]
        while True:
            more = {x for n in need for x in d[n]} - set(need)
            if not more: break
            need += sorted(more)
        aff &= set(need)
    admitted, failed, broken = [], [], []
    for n in order(d):
        if n not in aff: continue
        if any(x in broken for x in d[n]):
            broken.append(n)
            failed += [m.group(1) for m in re.finditer(r'^Theorem (\w+)', open(TMP + '/' + n + '.v').read(), re.M)] if n.startswith('Properties') else []
            continue
        while True:
            rc, err, out = coqc(n, limit)
            if rc == 0: break
            m = re.search(r'File "[^"]*", line (\d+)', err)
            lines = open(TMP + '/' + n + '.v').read().split('\n')
            if not m and rc == 124:
                broken.append(n); admitted.append(n + ':timeout'); break
            ln = int(m.group(1)) - 1 if m else -1
            h = next((i for i in range(ln, -1, -1) if HEAD.match(lines[i])), None)
            if h is not None and HEAD.match(lines[h]).group(1) == 'Example':
                # an example given by a term has no proof to admit: drop it
                e = next((i for i in range(h, len(lines)) if re.search(r'\.\s*$', lines[i])), None)
                if e is not None and h <= ln <= e and ':=' in '\n'.join(lines[h:e + 1]) and 'Proof.' not in '\n'.join(lines[h:e + 1]):
                    lines[h:e + 1] = [''] * (e - h + 1)
                    open(TMP + '/' + n + '.v', 'w').write('\n'.join(lines))
                    continue
            p = next((i for i in range(h, len(lines)) if re.search(r'\bProof\.', lines[i])), None) if h is not None else None
            q = next((i for i in range(p, len(lines)) if re.search(r'\b(Qed|Defined)\.', lines[i])), None) if p is not None else None
            if q is None or not (p <= ln <= q):
                broken.append(n); admitted.append(n + ':' + err.strip()[:200]); break
            name = HEAD.match(lines[h]).group(2)
            pre = lines[p][:lines[p].index('Proof.')]
            lines[p:q + 1] = [pre + 'Admitted.'] + [''] * (q - p)
            open(TMP + '/' + n + '.v', 'w').write('\n'.join(lines))
            admitted.append(name)
            if n.startswith('Properties') and HEAD.match(lines[h]).group(1) == 'Theorem': failed.append(name)
        if n.startswith('Properties') and n not in broken:
            src = open(TMP + '/' + n + '.v').read()
            names = re.findall(r'^Print Assumptions (\w+)\.', src, re.M)
            blocks = re.split(r'(?m)^(?=Closed under the global context|Axioms:)', out)
            blocks = [b for b in blocks if b.startswith('Closed') or b.startswith('Axioms:')]
            for nm, b in zip(names, blocks):
                if any(re.search(r'(?m)^(?:\w+\.)*' + re.escape(a) + r'\b', b) for a in admitted) and nm not in failed:
                    failed.append(nm)
    return {'admitted': admitted, 'failed': failed}

def main():
    muts = json.load(open(sys.argv[1]))
    for mut in muts:
        r = run(mut)
        print(mut['file'], '|', mut['old'][:60].replace('\n', ' '), '->', mut['new'][:60].replace('\n', ' '))
        print('   claim:', mut['claim'])
        if 'error' in r:
            print('   ERROR', r['error']); continue
        hit = [x for x in r['failed'] if x.startswith(mut['property'])]
        print('   failed:', r['failed'], '' if hit else '   <<<<< SURVIVED', r['admitted'] if not hit else '')
        with open(ROOT + '/seeded/LOG.jsonl', 'a') as f:
            f.write(json.dumps({'definition': mut.get('definition', mut['file']), 'file': mut['file'] + '.v', 'edit': mut['old'] + '  ==>  ' + mut['new'],
                                'claim_broken': mut['property'] + ': ' + mut['claim'], 'theorems_failed': r['failed'],
                                'proofs_broken': r['admitted'], 'tightened': mut.get('tightened', []), **({'rebuilt': 'what the theorems of ' + mut['property'] + ' rest on'} if mut.get('own') else {})}) + '\n')
main()

#!/usr/bin/env python3
"""Test the theorems against wrong programs: apply each edit of a JSON list to a scratch copy of rocq/, rebuild, and append what
failed to seeded/LOG.jsonl. Usage: mutate.py edits.json [scratch-dir]. An edit: {file, definition, old, new, claim, property}."""
import json, re, subprocess, sys, os, shutil, time
root = os.path.dirname(os.path.dirname(os.path.abspath(__file__)))
edits = json.load(open(sys.argv[1]))
scratch = sys.argv[2] if len(sys.argv) > 2 else '/tmp/mut'
shutil.rmtree(scratch, ignore_errors=True)
subprocess.run(['cp', '-a', root + '/rocq', scratch], check=True)
subprocess.run(['make', '-j4'], cwd=scratch, capture_output=True)
subprocess.run(['rm', '-rf', scratch + '.orig'])
subprocess.run(['cp', '-a', scratch, scratch + '.orig'], check=True)
deps = {}
for l in open(scratch + '/.Makefile.d'):
    a, _, b = l.partition(':')
    t = [x for x in a.split() if x.endswith('.vo')]
    if t: deps[t[0]] = [x for x in b.split() if x.endswith('.vo') and x.startswith('theories/')]
def drop_dependents(f):
    dead = {'theories/' + f + 'o'}
    while True:
        more = {t for t, d in deps.items() if t not in dead and any(x in dead for x in d)}
        if not more: break
        dead |= more
    for t in dead:
        if os.path.exists(f'{scratch}/{t}'): os.remove(f'{scratch}/{t}')
def enclosing(f, line):
    name = '?'
    for i, l in enumerate(open(f'{scratch}/{f}')):
        if i >= line: break
        m = re.match(r'\s*(?:Theorem|Lemma|Example|Definition|Fixpoint|Corollary|Fact|Remark) (\w+)', l)
        if m: name = m.group(1)
    return name
for e in edits:
    p = f'{scratch}/theories/{e["file"]}'
    src = open(p).read()
    if src.count(e['old']) < 1:
        print('NOT FOUND', e['definition'], e['old']); continue
    mod = src.replace(e['old'], e['new'], e.get('count', 1)) if 'at' not in e else None
    if 'at' in e:
        i = -1
        for _ in range(e['at']): i = src.index(e['old'], i + 1)
        mod = src[:i] + e['new'] + src[i + len(e['old']):]
    open(p, 'w').write(mod)
    drop_dependents(e['file'])
    t = time.time()
    failed, examples, touched = [], [], {}
    for _ in range(8):
        r = subprocess.run(['timeout', '1500', 'make', '-k', '-j', str(e.get('jobs', '3'))], cwd=scratch, capture_output=True, text=True)
        out = r.stdout + r.stderr
        again = False
        for m in re.finditer(r'File "\./(theories/\w+\.v)", line (\d+), characters', out):
            n = enclosing(m.group(1), int(m.group(2)))
            q = f'{scratch}/{m.group(1)}'
            t0 = open(q).read()
            mm = re.search(r'Example ' + re.escape(n) + r'\b.*?Qed\.', t0, re.S)
            if mm and 'Proof.' in mm.group(0):
                # an example fails: look whether a theorem fails too (in the scratch copy only)
                touched.setdefault(q, t0); examples.append(n); again = True
                open(q, 'w').write(t0[:mm.start()] + mm.group(0)[:mm.group(0).index('Proof.')] + 'Proof. Admitted.' + t0[mm.end():])
            elif n not in failed: failed.append(n)
        if not again and not failed and r.returncode != 0: failed.append('(make stopped: ' + out.strip().splitlines()[-1][:80] + ')')
        if not again or failed: break
    # property theorems in files that no longer build
    built = set(x[:-3] for x in os.listdir(scratch + '/theories') if x.endswith('.vo'))
    lost = []
    for x in sorted(os.listdir(scratch + '/theories')):
        if re.match(r'\w*Props\w*\.v$', x) and x[:-2] not in built:
            s = open(f'{scratch}/theories/{x}').read()
            lost += re.findall(r'^Theorem (C\d\d_\w+)', s, re.M)
    rel = [x for x in lost if any(x.startswith(q) for q in e['property'].split(','))]
    rec = {'definition': f'{e["file"]}: {e["definition"]}', 'edit': f'{e["old"]}  ->  {e["new"]}', 'claim': f'{e["property"]}: {e["claim"]}',
           'outcome': 'build fails' if failed else 'only examples fail' if examples else 'SURVIVED', 'theorems_failed': failed, 'examples_failed': examples, 'property_theorems_lost': rel, 'theorems_tightened': e.get('tightened', [])}
    open(root + '/seeded/LOG.jsonl', 'a').write(json.dumps(rec) + '\n')
    print(f'{time.time()-t:5.0f}s', 'killed' if failed else 'EXAMPLES ONLY' if examples else 'SURVIVED', e['definition'], '|', e['new'][:60].replace('\n', ' '), '|', failed[:3], rel[:3], flush=True)
    subprocess.run(['rm', '-rf', scratch]); subprocess.run(['cp', '-a', scratch + '.orig', scratch], check=True)

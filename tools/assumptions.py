"""Print the axioms of every manifest theorem (run from /verif after a build)."""
import json, subprocess, re, collections, glob, os
m = json.load(open('MANIFEST.json'))
thms = []
for c in m['claims']:
    for t in c['theorems']:
        if t not in thms: thms.append(t)
mods = [os.path.basename(f)[:-2] for f in sorted(glob.glob('rocq/theories/Props*.v'))]
src = ''.join('From Verif Require Import %s.\n' % x for x in mods)
for t in thms:
    src += 'Goal True. idtac "@@ %s". Abort.\nPrint Assumptions %s.\n' % (t, t)
os.makedirs('/tmp/asm', exist_ok=True)
open('/tmp/asm/A.v', 'w').write(src)
out = subprocess.run(['coqc', '-Q', 'rocq/theories', 'Verif', '/tmp/asm/A.v'], capture_output=True, text=True).stdout
res = collections.OrderedDict(); cur = None
for l in out.splitlines():
    if l.startswith('@@ '): cur = l[3:].strip(); res[cur] = []
    elif cur and re.match(r'^[A-Za-z_.0-9]+ *(:|$)', l) and not l.startswith('Axioms') and not l.startswith('Closed'):
        res[cur].append(re.split(r' |:', l)[0])
groups = collections.OrderedDict()
for t, a in res.items(): groups.setdefault(tuple(sorted(set(a))), []).append(t)
for a, ts in groups.items():
    print('* **' + (', '.join('`%s`' % x for x in a) if a else 'closed under the global context (no axioms)') + '** (%d theorems): ' % len(ts) + ', '.join('`%s`' % t for t in ts))

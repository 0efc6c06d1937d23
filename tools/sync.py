#!/usr/bin/env python3
"""Regenerate rocq/_CoqProject's file list and MANIFEST.json from tools/manifest_data.py."""
import glob, json, os, re
here = os.path.dirname(os.path.abspath(__file__))
root = os.path.dirname(here)
vs = sorted(os.path.basename(p) for p in glob.glob(root + '/rocq/theories/*.v'))
with open(root + '/rocq/_CoqProject', 'w') as f:
    f.write('-Q theories Verif\n')
    for v in vs:
        f.write('theories/' + v + '\n')
ns = {}
exec(open(here + '/manifest_data.py').read(), ns)
# names declared with Example (concrete cases) are listed apart from the theorems
text = '\n'.join(open(p).read() for p in glob.glob(root + '/rocq/theories/*.v'))
kinds = {n: k for k, n in re.findall(r'^(Theorem|Corollary|Lemma|Example)\s+(C\d\d+_\w+)', text, re.M)}
for c in ns['claims']:
    ex = [t for t in c['theorems'] if kinds[t] == 'Example']
    c['theorems'] = [t for t in c['theorems'] if kinds[t] != 'Example']
    if ex:
        c['examples'] = ex
json.dump({"claims": ns['claims']}, open(root + '/MANIFEST.json', 'w'), indent=1)

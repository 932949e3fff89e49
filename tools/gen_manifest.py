#!/usr/bin/env python3
"""Regenerates MANIFEST.json from the theorem names in rocq/theories/Prop*.v
(c<NN>_... belongs to property C<NN>) and the notes below."""
import re,glob,json
NOTES=json.load(open('/verif/tools/notes.json'))
props=[json.loads(l)['id'] for l in open('/verif/properties.jsonl')]
thms={}
for f in sorted(glob.glob('/verif/rocq/theories/Prop*.v')):
    for m in re.finditer(r'^Theorem\s+(c(\d\d)_\w+)',open(f).read(),re.M):
        thms.setdefault('C'+m.group(2),[]).append(m.group(1))
claims=[]
for p in props:
    n=NOTES.get(p,{})
    t=thms.get(p,[])
    st=n.get('status') or ('partial' if (not t or any(x.endswith(('_partial','_refuted')) for x in t)) else 'proved')
    claims.append({'property':p,'status':st,'theorems':t,'note':n.get('note','') or ('' if t else 'not yet modelled')})
json.dump({'claims':claims},open('/verif/MANIFEST.json','w'),indent=1)
print(sum(c['status']=='proved' for c in claims),'proved',sum(c['status']=='partial' for c in claims),'partial; missing:',[c['property'] for c in claims if not c['theorems']])

#!/usr/bin/env python3
"""usage: setprop.py ID field <<< text   - edit one field of one property; or append a new JSON line"""
import sys,json
pid,field=sys.argv[1:3]; text=sys.stdin.read().strip()
ls=[json.loads(l) for l in open('/verif/properties.jsonl')]
for d in ls:
    if d['id']==pid: d[field]=text if field!='anchors' else json.loads(text)
open('/verif/properties.jsonl','w').write(''.join(json.dumps(d)+'\n' for d in ls))

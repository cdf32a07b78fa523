#!/usr/bin/env python3
"""Regenerate MANIFEST.json from the Props files and tools/notes.json (status and note per property)."""
import json,re,glob,os
root=os.path.dirname(os.path.dirname(os.path.abspath(__file__)))
notes=json.load(open(root+'/tools/notes.json'))
th={}
for f in sorted(glob.glob(root+'/rocq/theories/Props/*.v')):
    s=re.sub(r'\(\*.*?\*\)','',open(f).read(),flags=re.S)
    for m in re.finditer(r'^(?:Theorem|Lemma|Corollary)\s+(C(\d+)_\w+)',s,re.M):
        th.setdefault('C'+m.group(2),[]).append(m.group(1))
claims=[]
for l in open(root+'/properties.jsonl'):
    d=json.loads(l); i=d['id']
    if i not in th:
        if i in notes and notes[i].get('status')=='not_applicable':
            claims.append(dict(property=i,status='not_applicable',theorems=[],note=notes[i]['note']))
        else: print('no theorem yet',i)
        continue
    n=notes.get(i,{})
    st=n.get('status') or ('partial' if any(x.endswith(('_partial','_refuted')) for x in th[i]) else 'proved')
    claims.append(dict(property=i,status=st,theorems=th[i],note=n.get('note','')))
json.dump({"claims":claims},open(root+'/MANIFEST.json','w'),indent=1)

#!/usr/bin/env python3
"""setprop.py ID field value : edit one property; `setprop.py note ID text` edits tools/notes.json; `add` json appends."""
import json,sys,os
root=os.path.dirname(os.path.dirname(os.path.abspath(__file__)))
if sys.argv[1]=='note':
    p=root+'/tools/notes.json'; n=json.load(open(p)); n.setdefault(sys.argv[2],{})['note']=sys.argv[3]
    json.dump(n,open(p,'w'),indent=0)
elif sys.argv[1]=='add':
    d=json.loads(sys.argv[2]); assert set(d)>={'id','title','statement','quantifier','why_tests_cant','anchors'}
    open(root+'/properties.jsonl','a').write(json.dumps(d)+'\n')
else:
    p=root+'/properties.jsonl'; L=[json.loads(l) for l in open(p)]
    for d in L:
        if d['id']==sys.argv[1]: d[sys.argv[2]]=sys.argv[3]
    open(p,'w').write(''.join(json.dumps(d)+'\n' for d in L))

#!/usr/bin/env python3
"""Seed a bug: seed.py FILE 'definition' 'old' 'new' 'claim broken'.  Works in a scratch copy; logs the outcome."""
import sys,os,subprocess,json,re,shutil
root=os.path.dirname(os.path.dirname(os.path.abspath(__file__)))
def enclosing(path,line):
    name='?'
    for i,l in enumerate(open(path)):
        if i+1>line: break
        m=re.match(r'\s*(?:Theorem|Lemma|Corollary|Example|Fact|Definition|Fixpoint|Instance)\s+(\w+)',l)
        if m: name=m.group(1)
    return name
def run(f,defn,old,new,claim,tightened=[]):
    scratch=os.environ.get('SEED_SCRATCH','/tmp/seed_scratch')
    shutil.rmtree(scratch,ignore_errors=True); subprocess.run(['cp','-a',os.environ.get('SEED_BASE',root+'/rocq'),scratch],check=True)
    p=scratch+'/theories/'+f
    s=open(p).read()
    if s.count(old)!=1: print('ERROR: old text occurs',s.count(old),'times in',f,':',old); return
    open(p,'w').write(s.replace(old,new))
    r=subprocess.run(['sh','-c','ulimit -v 6000000; timeout 1500 make '+os.environ.get('SEED_K','-k')+' -j2'],cwd=scratch,capture_output=True,text=True)
    out=r.stdout+r.stderr
    failed=[]
    for m in re.finditer(r'File "\./(theories/[^"]+)", line (\d+)[^\n]*\n\s*Error',out):
        n=enclosing(scratch+'/'+m.group(1),int(m.group(2)))
        e=m.group(1).replace('theories/','')+':'+n
        if e not in failed: failed.append(e)
    caught=r.returncode!=0
    rec=dict(definition=defn,file=f,edit='%s  ==>  %s'%(old,new),claim_broken=claim,caught=caught,theorems_failed=failed,theorems_tightened=tightened)
    print(('CAUGHT ' if caught else '*** SURVIVED ')+defn+': '+', '.join(failed))
    if os.environ.get('NOLOG')!='1':
        open(root+'/seeded/LOG.jsonl','a').write(json.dumps(rec)+'\n')
if __name__=='__main__':
    if len(sys.argv)==2:
        for d in json.load(open(sys.argv[1])): run(*d)
    else: run(*sys.argv[1:6])

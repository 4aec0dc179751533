#!/usr/bin/env python3
"""Mutation test of the theorems.  Reads a list of mutations (python file defining
M = [(id, file, definition, old, new, claim, edit in words)]), applies each in a scratch copy of
rocq/, rebuilds the Props file of the claim, and appends one line per attempt to seeded/LOG.jsonl."""
import sys, os, re, json, subprocess, shutil, time
V='/verif'; S='/tmp/mut'
def sh(c,t=900):
    try: return subprocess.run(c,shell=True,capture_output=True,text=True,timeout=t)
    except subprocess.TimeoutExpired:
        class R: returncode=124; stdout=''; stderr='timeout'
        return R
def reset():
    sh(f'mkdir -p {S} && rsync -a --delete {V}/rocq/ {S}/ 2>/dev/null || (rm -rf {S} && cp -a {V}/rocq {S})')
props={}
for f in os.listdir(V+'/rocq/theories'):
    if f.startswith('Props_') and f.endswith('.v'):
        for m in re.finditer(r'^Theorem (C\d+_\w+)',open(V+'/rocq/theories/'+f).read(),re.M):
            props.setdefault(m.group(1)[:3],[]).append((f[:-2],m.group(1)))
def lemma_at(path,line):
    L=open(path).read().split('\n')[:line]
    for l in reversed(L):
        m=re.match(r'\s*(?:Lemma|Theorem|Example|Definition|Fixpoint|Fact|Corollary|Let|Instance)\s+(\w+)',l)
        if m: return m.group(1)
    return '?'
def main(lst):
    ns={}; exec(open(lst).read(),ns)
    done=set()
    try:
        for l in open(V+'/seeded/LOG.jsonl'): done.add(json.loads(l)['id'])
    except FileNotFoundError: pass
    for (i,f,d,old,new,claim,words) in ns['M']:
        if i in done and '-f' not in sys.argv: continue
        reset()
        p=f'{S}/theories/{f}.v'; s=open(p).read()
        if s.count(old)!=1: print(i,'PATTERN COUNT',s.count(old)); continue
        open(p,'w').write(s.replace(old,new))
        claims=claim.split()
        files=sorted({x for c in claims for (x,_) in props[c]})
        t=time.time()
        r=sh(f'cd {S} && rm -f theories/{f}.vo && make -k -j4 '+' '.join(f'theories/{x}.vo' for x in files))
        fails=[]
        for m in re.finditer(r'File "\./theories/(\w+)\.v", line (\d+)[^\n]*\nError:?\s*([^\n]*)',r.stderr+r.stdout):
            fails.append({'file':m.group(1),'lemma':lemma_at(f'{S}/theories/{m.group(1)}.v',int(m.group(2))),'error':m.group(3)[:100]})
        built=[x for x in files if os.path.exists(f'{S}/theories/{x}.vo') and os.path.getmtime(f'{S}/theories/{x}.vo')>t]
        if r.returncode==0 and not fails: built=files
        failed=[n for c in claims for (x,n) in props[c] if x not in built]
        killed=not set(files)<=set(built)
        comp=any(x['file']==f for x in fails)
        ent={'id':i,'definition':f'{f}.{d}','edit':words,'claim':claim,'breaks':'','first_failures':fails[:3],
             'theorems_failed':failed if killed else [], 'tightened':[], 'outcome':'killed' if killed else 'SURVIVED'}
        if comp: ent['outcome']='model does not compile'
        del ent['breaks']
        print(i,ent['outcome'],[(x['file'],x['lemma']) for x in fails[:3]],round(time.time()-t),'s',flush=True)
        if ent['outcome']=='killed' or '-s' in sys.argv:
            with open(V+'/seeded/LOG.jsonl','a') as o: o.write(json.dumps(ent)+'\n')
main(sys.argv[1])

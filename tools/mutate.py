#!/usr/bin/env python3
"""Seeded-bug harness. usage: mutate.py muts.json
Each entry: {"def","file","old","new","claim"}.  In a scratch copy of rocq/, apply the edit, rebuild;
every lemma whose proof breaks is admitted (in the scratch copy only) and the build goes on; at the end
Print Assumptions tells which of the C.. theorems rest on a broken lemma.  With "targets" (names of
Properties files) only these are rebuilt and looked at.  Appends to seeded/LOG.jsonl."""
import json,sys,os,re,shutil,subprocess,glob
V='/verif'; S='/tmp/mut%d'%os.getpid(); SNAP='/tmp/snap%d'%os.getpid()
def sh(c,**k): return subprocess.run(c,shell=True,capture_output=True,text=True,**k)
def load_order():
    return [l.strip() for l in open((SNAP if os.path.exists(SNAP) else V+'/rocq')+'/_CoqProject') if l.strip().endswith('.v')]
def run(m):
    sh(f'rm -rf {S}; cp -a {SNAP} {S}')
    p=f'{S}/theories/{m["file"]}'
    s=open(p).read()
    if s.count(m['old'])<1: return None,'edit text not found'
    s=s.replace(m['old'],m['new'],1) if not m.get('all') else s.replace(m['old'],m['new'])
    open(p,'w').write(s)
    sh(f'cd {S} && coq_makefile -f _CoqProject -o Makefile')
    broken=[]; tg=' '.join('theories/%s.vo'%x for x in m.get('targets',[]))
    for it in range(150):
        r=sh(f'cd {S} && timeout 1500 make -j2 {tg} 2>&1')
        if r.returncode==0: break
        ms=list(dict.fromkeys(re.findall(r'File "\./theories/([\w]+\.v)", line (\d+)[^\n]*\n(Error[^\n]*)?',r.stdout)))
        ms=[x for x in ms]
        if not ms: return broken,'unknown failure '+r.stdout[-300:]
        done=False
        seen=set()
        for f,ln,_ in ms:
            if f in seen: continue
            seen.add(f)
            fp=f'{S}/theories/{f}'; L=open(fp).read().split('\n'); ln=int(ln)-1
            # enclosing statement
            a=ln
            while a>=0 and not re.match(r'\s*(Local )?(Lemma|Theorem|Example|Definition|Fixpoint|Corollary|Fact|Instance)\b',L[a]): a-=1
            if a<0: continue
            mm=re.match(r'\s*(?:Local )?(\w+)\s+([\w\']+)',L[a])
            b=a
            while b<len(L) and not re.search(r'\bProof\b',L[b]): b+=1
            e=b
            while e<len(L) and not re.search(r'\b(Qed|Defined|Admitted)\.',L[e]): e+=1
            if b>=len(L) or not (a<=ln<=e) or mm.group(1) in('Definition','Fixpoint'): return broken,f'cannot admit {mm.group(2)} in {f}:{ln+1}'
            broken.append(mm.group(2)); done=True
            head=L[b][:L[b].index('Proof')]
            L[b:e+1]=[head+'Admitted.']
            open(fp,'w').write('\n'.join(L))
        if not done: return broken,'stuck'
    # which properties rest on them
    mods=[os.path.basename(x)[:-2] for x in load_order()]
    names=[]
    for f in sorted(glob.glob(S+'/theories/Properties_*.v')):
        names+=re.findall(r'^Theorem\s+(C\d\d+_\w+)',open(f).read(),re.M)
    t='From Coq Require Import String.\nFrom Verif Require '+' '.join(x for x in mods if x.startswith('Properties_') and (not m.get('targets') or x in m['targets']))+'.\n'
    out=[]
    pm={}
    for f in sorted(glob.glob(S+'/theories/Properties_*.v')):
        b=os.path.basename(f)[:-2]
        for n in re.findall(r'^Theorem\s+(C\d\d+_\w+)',open(f).read(),re.M): pm[n]=b
    # only files rebuilt because of the edit can be affected
    new={os.path.basename(f)[:-2] for f in glob.glob(S+'/theories/Properties_*.v')
         if os.path.exists(f[:-2]+'.vo') and (not m.get('targets') or os.path.basename(f)[:-2] in m['targets']) and os.path.getmtime(f[:-2]+'.vo')!=os.path.getmtime(SNAP+'/theories/'+os.path.basename(f)[:-2]+'.vo')}
    pm={n:b for n,b in pm.items() if b in new} if broken else {}
    for n in pm: t+=f'Check {pm[n]}.{n}.\nPrint Assumptions {pm[n]}.{n}.\n'
    open(S+'/mutq.v','w').write(t)
    r=sh(f'cd {S} && coqc -Q theories Verif {S}/mutq.v 2>&1')
    cur=None; fails=[]
    for line in r.stdout.split('\n'):
        x=re.match(r'(?:Properties_\w+\.)?(C\d\d+_\w+)\s*$',line) or re.match(r'(?:Properties_\w+\.)?(C\d\d+_\w+)\b',line)
        if x and x.group(1) in pm: cur=x.group(1); 
        y=re.match(r'(?:\w+\.)?([\w\']+)\s*:',line)
        y=y or re.match(r'(?:\w+\.)?([\w\']+)\s*$',line)
        if y and y.group(1) in broken and cur and cur not in fails: fails.append(cur)
    for b in broken:
        if b in pm and b not in fails: fails.append(b)
    return broken,fails
if __name__=='__main__':
    sh(f'cp -a {V}/rocq {SNAP} && cd {SNAP} && coq_makefile -f _CoqProject -o Makefile && make -j4')
    for m in json.load(open(sys.argv[1])):
        b,f=run(m)
        rec={"definition":m['def'],"edit":m['edit'] if 'edit' in m else f"{m['old'].strip()}  ==>  {m['new'].strip()}","claim":m['claim'],
             "theorems_failed":f,"lemmas_failed":b,"tightened":m.get('tightened',[])}
        print(json.dumps(rec)); sys.stdout.flush()
        if isinstance(f,list): open(V+'/seeded/LOG.jsonl','a').write(json.dumps(rec)+'\n')
    sh(f'rm -rf {S} {SNAP}')

#!/usr/bin/env python3
"""Run Print Assumptions for every theorem of MANIFEST.json (needs a built tree) and write ASSUMPTIONS.md,
grouped by the set of axioms."""
import json,subprocess,re,os,glob,tempfile
root=os.path.dirname(os.path.dirname(os.path.abspath(__file__)))
man=json.load(open(root+'/MANIFEST.json'))
where={}
for f in sorted(glob.glob(root+'/rocq/theories/Properties_*.v')):
    for m in re.finditer(r'^Theorem\s+((C\d\d+)_\w+)',open(f).read(),re.M):
        where[m.group(1)]=os.path.basename(f)[:-2]
names=[t for c in man['claims'] for t in c['theorems']]
src='From Verif Require '+' '.join(sorted(set(where.values())))+'.\n'
for t in names: src+=f'Goal True. idtac "@@{t}". exact I. Qed.\nPrint Assumptions {where[t]}.{t}.\n'
d=tempfile.mkdtemp(); open(d+'/a.v','w').write(src)
out=subprocess.run(['coqc','-Q',root+'/rocq/theories','Verif',d+'/a.v'],capture_output=True,text=True)
assert out.returncode==0,out.stderr[-2000:]
groups={}
for part in out.stdout.split('@@')[1:]:
    name,rest=part.split('\n',1)
    ax=tuple(sorted(set(re.findall(r'^([A-Za-z][\w.\']*) :|^([A-Za-z][\w.\']*)$',rest,re.M)) and
        {a or b for a,b in re.findall(r'^([A-Za-z][\w.\']*) :|^([A-Za-z][\w.\']*)$',rest,re.M)} - {'Axioms'}))
    groups.setdefault(ax,[]).append(name.strip())
with open(root+'/ASSUMPTIONS.md','w') as f:
    f.write('# Print Assumptions for every theorem of MANIFEST.json\n\nGenerated by tools/assumptions.py. No axiom is declared in this development; all come from the standard library.\n')
    for ax,ts in sorted(groups.items(),key=lambda x:(len(x[0]),x[0])):
        f.write('\n## '+('Closed under the global context' if not ax else ', '.join('`'+a+'`' for a in ax))+f' ({len(ts)} theorems)\n\n')
        f.write(', '.join('`'+t+'`' for t in ts)+'\n')
for ax,ts in groups.items(): print(len(ts),ax)

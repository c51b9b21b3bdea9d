#!/usr/bin/env python3
"""Turn results of the mutation harness into seeded/LOG.jsonl.

usage: mklog.py results.jsonl   (needs the .glob files of a build in rocq/theories)
A theorem counts as failed if it depends (transitively, by the .glob files) on
the first lemma of some file that no longer compiled, or is that lemma."""
import json,sys,re,os,glob
here=os.path.dirname(os.path.dirname(os.path.abspath(__file__)))
th=os.path.join(here,'rocq','theories')
deps={}          # (file,name) -> set of (file,name)
thms=[]
for g in glob.glob(th+'/*.glob'):
    f=os.path.basename(g)[:-5]
    cur=None
    objs=[]
    refs=[]
    for l in open(g,errors='replace'):
        m=re.match(r'(\w+) (\d+):(\d+) (\S+) (\S+)\s*$',l)
        if m and m.group(1) in ('prf','def','thm','lem','fix','ind','rec','ex','constr','proj','inst','not','sec'):
            if m.group(1) in ('prf','def','thm','lem','ind','rec','ex','inst'): objs.append((int(m.group(2)),m.group(5)))
            continue
        m=re.match(r'R(\d+):(\d+) Verif\.(\S+) (\S*) (\S+) (\w+)',l)
        if m: refs.append((int(m.group(1)),m.group(3),m.group(5)))
    objs.sort(); refs.sort()
    i=-1
    for p,rf,rn in refs:
        while i+1<len(objs) and objs[i+1][0]<=p: i+=1
        if i>=0: deps.setdefault((f,objs[i][1]),set()).add((rf,rn))
    for _,n in objs:
        deps.setdefault((f,n),set())
        if f.startswith('Props_') and re.match(r'C\d\d_',n) and not n.endswith('_ex'): thms.append((f,n))
rev={}
for a,bs in deps.items():
    for b in bs: rev.setdefault(b,set()).add(a)
def reach(s):
    seen={s}; st=[s]
    while st:
        x=st.pop()
        for y in rev.get(x,()):
            if y not in seen: seen.add(y); st.append(y)
    return seen
def defname(file,old,occ):
    s=open(os.path.join(th,file)).read()
    p=-1
    for _ in range((occ or 0)+1): p=s.find(old,p+1)
    if p<0: return '?'
    ds=[m for m in re.finditer(r'^\s*(?:Local )?(?:Definition|Fixpoint|Function|Inductive|Record|with)\s+(\w+)',s[:p+len(old)],re.M)]
    return ds[-1].group(1) if ds else '?'
tight={'m1_42':('C19/C20 literals in Props_Ham.v now fix the cut-off',['C19','C20']),
       'm2_11':('added C51_pruning',['C51_pruning']),
       'm2_43':('added C51_constraint_pruning',['C51_constraint_pruning'])}
if os.path.exists(os.path.join(here,'seeded','tightened.json')):
    tight.update(json.load(open(os.path.join(here,'seeded','tightened.json'))))
out=open(os.path.join(here,'seeded','LOG.jsonl'),'w')
n=0
for l in open(sys.argv[1]):
    r=json.loads(l)
    d=r.get('definition') or defname(r['file'],r['old'],r.get('occ'))
    bad=set()
    for f,lem,err in r['fails']:
        bad|=reach((f[:-2],lem))
    failed=sorted({t[1] for t in thms if t in bad})
    claims=set(re.findall(r'C\d\d',r['breaks']))
    mine=[t for t in failed if t[:3] in claims]
    row={'id':r['id'],'definition':d,'file':'rocq/theories/'+r['file'],'edit':{'from':r['old'],'to':r['new']},'claim_broken':r['breaks'],
         'outcome':'survived' if r['survived'] else 'caught',
         'first_failing':[f+': '+lem for f,lem,_ in r['fails']],
         'theorems_failed':mine if mine else failed[:12],'other_theorems_failed':max(0,len(failed)-len(mine)) if mine else max(0,len(failed)-12),
         'theorems_tightened':tight.get(r['id'],('',[]))[1]}
    if r['id'] in tight: row['note']=tight[r['id']][0]
    if r.get('note'): row['note']=(row.get('note','')+' '+r['note']).strip()
    out.write(json.dumps(row)+'\n'); n+=1
print(n,'rows')

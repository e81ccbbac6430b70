import json,re,sys,glob,os,collections
src='/tmp/mut/src/theories'
items={} ; text={}
owner={}
for f in sorted(glob.glob(src+'/*.v')):
    t=open(f).read(); t=re.sub(r'\(\*.*?\*\)','',t,flags=re.S)
    ms=list(re.finditer(r'^\s*(?:Local |#\[[^\]]*\] )?(Theorem|Lemma|Corollary|Example|Definition|Fixpoint|Inductive|Record|Fact|Remark)\s+([\w\']+)',t,flags=re.M))
    for a,b in zip(ms,ms[1:]+[None]):
        text[b and a.group(2) or a.group(2)]=t[a.start():(b.start() if b else len(t))]
        owner[a.group(2)]=os.path.basename(f)
uses=collections.defaultdict(set)
names=set(text)
for n,t in text.items():
    for w in set(re.findall(r"[A-Za-z_][\w']*",t)):
        if w in names and w!=n: uses[w].add(n)
def claims(n):
    seen={n}; st=[n]
    while st:
        x=st.pop()
        for y in uses[x]:
            if y not in seen: seen.add(y); st.append(y)
    return sorted(x for x in seen if re.match(r'C\d\d_',x))
batch=sys.argv[1]; tight=json.load(open(sys.argv[2])) if len(sys.argv)>2 else {}
for l in open('/tmp/mut/'+batch+'.jsonl'):
    r=json.loads(l)
    fl=[]
    for x in r['fails']:
        fl.append(x['file']+'.'+x['name'])
    cl=sorted(set(c for x in r['fails'] for c in ([x['name']] if re.match(r'C\d\d_',x['name']) else claims(x['name']))))
    t=tight.get(str(r['i']),{})
    d={'definition':r['file']+'.'+r['def'],'edit':r['desc']+': `'+r['old']+'` -> `'+r['new']+'`','claim_broken':r['claim'],'theorems_failed':fl+r.get('timeouts',[]),'claims_depending_on_failed':cl[:40],'theorems_tightened':t.get('tightened',[])}
    if t.get('note'): d['note']=t['note']
    print(json.dumps(d))

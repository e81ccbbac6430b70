import sys,os,re,subprocess,shutil,json,time
src='/tmp/mut/src'
W=sys.argv[2]; mod=sys.argv[1]; J=sys.argv[3] if len(sys.argv)>3 else '2'
only=set(map(int,sys.argv[4].split(','))) if len(sys.argv)>4 else None
g={}; exec(open('/tmp/mut/'+mod+'.py').read(),g); M=g['M']
out='/tmp/mut/'+mod+'.jsonl'
done=set()
if os.path.exists(out):
    for l in open(out): done.add(json.loads(l)['i'])
if not os.path.isdir(W):
    subprocess.run(['cp','-a',src,W],check=True)
    if not os.path.exists(W+'/Makefile'): subprocess.run('coq_makefile -f _CoqProject -o Makefile',shell=True,cwd=W)
def items(path):
    L=[];
    for n,l in enumerate(open(path),1):
        mm=re.match(r'\s*(?:Local )?(Theorem|Lemma|Corollary|Example|Definition|Fixpoint|Inductive|Record|Fact|Remark)\s+(\w+)',l)
        if mm: L.append((n,mm.group(1),mm.group(2)))
    return L
for i,(f,d,o,n,desc,cl) in enumerate(M):
    if i in done or (only is not None and i not in only): continue
    p=f'{W}/theories/{f}.v'; orig=open(f'{src}/theories/{f}.v').read()
    if orig.count(o)<1:
        print(i,'NOT FOUND',f,d,flush=True); continue
    if orig.count(o)>1: print(i,'multiple',f,d,orig.count(o),flush=True)
    # restrict to definition d
    a=re.search(r'(Definition|Fixpoint)\s+'+re.escape(d)+r'\b',orig)
    start=a.start() if a else 0
    pos=orig.find(o,start)
    if pos<0: pos=orig.find(o)
    open(p,'w').write(orig[:pos]+n+orig[pos+len(o):])
    t=time.time()
    r=subprocess.run(f"make -j{J} COQC='timeout 500 coqc' 2>&1",shell=True,cwd=W,capture_output=True,text=True,errors='replace')
    fails=[]
    for mm in re.finditer(r'File "\./theories/(\w+)\.v", line (\d+), characters.*?:\n(Error[^\n]*(?:\n[^\n]*)?)',r.stdout):
        ff,ln,err=mm.group(1),int(mm.group(2)),mm.group(3)
        it=[x for x in items(f'{W}/theories/{ff}.v') if x[0]<=ln]
        fails.append({'file':ff,'line':ln,'kind':it[-1][1] if it else '?','name':it[-1][2] if it else '?','err':err[:150]})
    tmo=re.findall(r'\*\*\* \[[^\]]*theories/(\w+)\.vo\] Error 124',r.stdout)
    json.dump({'i':i,'file':f,'def':d,'old':o,'new':n,'desc':desc,'claim':cl,'fails':fails,'timeouts':tmo,'rc':r.returncode,'t':round(time.time()-t)},open(out,'a')); open(out,'a').write('\n')
    print(i,f,d,'|',desc,'|',[(x['file'],x['kind'],x['name']) for x in fails],tmo,'rc',r.returncode,round(time.time()-t),'s',flush=True)
    # restore
    open(p,'w').write(orig)
    # revert built files: recopy vo/glob older than
    subprocess.run(f"cp -a {src}/theories/. {W}/theories/",shell=True)

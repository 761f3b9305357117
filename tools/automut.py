"""Random small edits of the model files, to look for edits that no theorem notices.
usage: automut.py BASE WORK OUT N FILES...   (BASE: built copy of rocq/, WORK: scratch directory)
Each edit is one textual change of code (not of comments); the work copy is rebuilt until the first
failure.  An edit that does not type-check in its own file is discarded; survivors are for reading."""
import re,random,subprocess,sys,os,json
base,work,out,N=sys.argv[1:5]; N=int(N); files=sys.argv[5:]
random.seed(int(os.environ.get('SEED','1')))
def mask(t):
    # positions inside comments
    m=[False]*len(t); d=0; i=0
    while i<len(t):
        if t.startswith('(*',i): d+=1; m[i]=m[i+1]=True; i+=2; continue
        if t.startswith('*)',i) and d: m[i]=m[i+1]=True; d-=1; i+=2; continue
        m[i]=d>0; i+=1
    return m
def cands(t):
    m=mask(t); r=[]
    # only inside Definition/Fixpoint/... bodies
    spans=[(x.start(),x.end()) for x in re.finditer(r'^(?:Definition|Fixpoint|CoFixpoint|Inductive|Record|with)\b.*?\.\s*$',t,re.S|re.M)]
    inside=lambda i: any(a<=i<b for a,b in spans) and not m[i]
    def add(a,b,new,kind):
        if inside(a) and t[a:b]!=new: r.append((a,b,new,kind))
    for x in re.finditer(r'\btrue\b',t): add(x.start(),x.end(),'false','bool')
    for x in re.finditer(r'\bfalse\b',t): add(x.start(),x.end(),'true','bool')
    for x in re.finditer(r'\bOk\b',t): add(x.start(),x.end(),'Err','result')
    for x in re.finditer(r'\bErr\b',t): add(x.start(),x.end(),'Ok','result')
    for x in re.finditer(r'(?<![\w.])\d+(?!\w)',t): add(x.start(),x.end(),str(int(x.group())+1),'number')
    for x in re.finditer(r'lit "([^"]+)"',t):
        s=x.group(1); i=random.randrange(len(s)); c='q' if s[i]!='q' else 'w'
        add(x.start(),x.end(),'lit "%s"'%(s[:i]+c+s[i+1:]),'literal')
    for a,b in [('<=?','<?'),('<?','<=?'),('&&','||'),('||','&&'),('negb ','id '),('++','++ [] ++ rev ++')]:
        if a=='++': continue
        for x in re.finditer(re.escape(a),t):
            if a=='<?' and t[x.start()-1:x.start()]=='<': continue
            add(x.start(),x.end(),b,'operator')
    for x in re.finditer(r'(\b[\w\']+) \+\+ ([\w\']+\b)',t): add(x.start(),x.end(),x.group(2)+' ++ '+x.group(1),'append order')
    for x in re.finditer(r'\| ([^|=\n]+) => ([^\n|]+)\n(\s*)\| ([^|=\n]+) => ([^\n|]+?)(?=\n|$)',t):
        if x.group(2)!=x.group(5):
            e2=x.group(5)
            if e2.endswith('.') or e2.rstrip().endswith('end') or ' end' in e2: continue
            add(x.start(),x.end(),'| %s => %s\n%s| %s => %s'%(x.group(1),e2,x.group(3),x.group(4),x.group(2)),'branches swapped')
    for x in re.finditer(r'\[([^\[\];]+);([^\[\];]+)([;\]])',t):
        add(x.start(),x.end(),'[%s;%s%s'%(x.group(2),x.group(1),x.group(3)),'list order')
        add(x.start(),x.end(),'[%s%s'%(x.group(1),x.group(3)),'list element dropped')
    # variables
    for a,b in spans:
        body=t[a:b]
        ids=sorted(set(re.findall(r'(?<![\w.])([a-z][\w\']{0,8})(?![\w\'])',body))-{'match','with','end','if','then','else','let','in','fun','forall','struct','as','lit','nat','str','exists','by','return','for','list','option','fst','snd'})
        if len(ids)<2: continue
        occ=list(re.finditer(r'(?<![\w.])([a-z][\w\']{0,8})(?![\w\'])',body))
        for _ in range(6):
            x=random.choice(occ)
            if x.group(1) in ids:
                y=random.choice(ids)
                add(a+x.start(),a+x.end(),y,'variable')
    return r
def sh(c,to): 
    try: return subprocess.run(c,shell=True,capture_output=True,text=True,timeout=to)
    except subprocess.TimeoutExpired as e: return None
os.makedirs(work,exist_ok=True)
jobs=[]
for f in files:
    t=open('%s/theories/%s.v'%(base,f)).read(); c=cands(t)
    random.shuffle(c); jobs.append((f,t,c))
done={f:0 for f in files}
while any(c for _,_,c in jobs):
    for f,t,c in jobs:
        ok=False
        while c and not ok and done[f]<N:
            a,b,new,kind=c.pop()
            sh('rm -rf %s; cp -a %s %s'%(work,base,work),300)
            p='%s/theories/%s.v'%(work,f)
            open(p,'w').write(t[:a]+new+t[b:])
            line=t[:a].count('\n')+1
            r=sh('cd %s && ulimit -v 6000000; make theories/%s.vo 2>&1 | tail -5'%(work,f),600)
            if r is None or 'Error' in r.stdout: continue
            ok=True; done[f]+=1
            r=sh('cd %s && ulimit -v 6000000; make -j2 2>&1 | grep -A3 "^File\\|Error" | head -8'%work,2400)
            o='' if r is None else r.stdout
            mm=re.search(r'File "\./theories/(\w+)\.v", line (\d+)',o)
            where='%s:%s'%(mm.group(1),mm.group(2)) if mm else ('timeout' if r is None else (o.strip()[:200] if o.strip() else None))
            rec=dict(file=f,line=line,kind=kind,old=t[a:b],new=new,killed_at=where)
            open(out,'a').write(json.dumps(rec)+'\n')
        if not ok: c.clear()

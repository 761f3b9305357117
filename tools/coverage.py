"""For each source file of /repo, list lines with code items that no comment in rocq/theories cites."""
import re,glob,os,sys
cites={}
for f in glob.glob('/verif/rocq/theories/*.v'):
    t=open(f).read()
    for c in re.findall(r'\(\*.*?\*\)',t,re.S):
        cur=None
        for m in re.finditer(r'((?:style|core|ansi|html|plain|macros|src)(?:/src)?/[a-z_]+\.rs)(?::|,? lines? )?|(\d+)(?:-(\d+))?',c):
            if m.group(1): cur=m.group(1)
            elif cur: 
                a=int(m.group(2)); b=int(m.group(3) or a)
                cites.setdefault(cur,set()).update(range(a,b+1))
for f in sorted(glob.glob('/repo/*/src/*.rs')+glob.glob('/repo/src/*.rs')):
    r=f[len('/repo/'):]
    L=open(f).read().split('\n')
    miss=[]
    for i,l in enumerate(L,1):
        if re.match(r'\s*(pub )?(pub\(\w+\) )?(fn|impl|struct|enum|trait|macro_rules!|const|type) ?',l) and i not in cites.get(r,set()):
            miss.append((i,l.strip()))
    if miss:
        print(r)
        for i,l in miss: print('   ',i,l)

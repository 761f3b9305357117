import re,sys
for f in sys.argv[1:]:
    s=open(f'/verif/rocq/theories/{f}.v').read()
    s=re.sub(r'Proof\b.*?(Qed|Defined)\.','',s,flags=re.S)
    print('=====',f); print(re.sub(r'\n\s*\n+','\n',s))

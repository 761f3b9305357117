#!/bin/bash
# compile one theory with a time limit and show where it stopped
cd /verif/rocq/theories; T=${2:-120}
timeout $T coqc -time -Q . Verif $1.v > /tmp/ct.txt 2>&1; rc=$?
grep -v '^Chars\|^Closed' /tmp/ct.txt | tail -40; echo rc=$rc
if [ $rc = 124 ]; then python3 - $1 <<'E'
import re,sys
l=[x for x in open('/tmp/ct.txt').read().strip().split('\n') if x.startswith('Chars')][-1]
m=re.search(r'Chars (\d+) - (\d+)',l)
s=open(f'/verif/rocq/theories/{sys.argv[1]}.v','rb').read()
b=int(m.group(2)); print('line',s[:b].count(b'\n')+1, s[b:b+200].decode(errors='replace'))
E
fi

"""usage: addprop.py FILE.json : add a property with keys of properties.jsonl plus note, design, files"""
import json,sys
p=json.load(open(sys.argv[1]))
note=p.pop('note'); design=p.pop('design'); files=p.pop('files')
root='/verif/'
ids=[json.loads(l)['id'] for l in open(root+'properties.jsonl')]
if p['id'] not in ids:
    open(root+'properties.jsonl','a').write(json.dumps(p,ensure_ascii=False)+"\n")
n=json.load(open(root+'tools/notes.json')); n[p['id']]={'note':note}
json.dump(n,open(root+'tools/notes.json','w'),indent=1,ensure_ascii=False)
s=open(root+'rocq/_CoqProject').read().rstrip('\n')
for f in files:
    if 'theories/%s.v'%f not in s.split('\n'): s+='\ntheories/%s.v'%f
open(root+'rocq/_CoqProject','w').write(s+'\n')
d=open(root+'DESIGN.md').read()
if design not in d:
    d=d.replace('\n## Testing the theorems','\n'+design+'\n\n## Testing the theorems')
open(root+'DESIGN.md','w').write(d)

import json,re,glob
notes=json.load(open('/verif/tools/notes.json'))
thms={}
for f in sorted(glob.glob('/verif/rocq/theories/Props*.v')):
    for m in re.finditer(r'^Theorem (C(\d\d)_\w+)',open(f).read(),re.M):
        thms.setdefault('C'+m.group(2),[]).append(m.group(1))
claims=[]
for l in open('/verif/properties.jsonl'):
    d=json.loads(l); i=d['id']
    if i in thms and i in notes:
        st,n=notes[i]
        claims.append({"property":i,"status":st,"theorems":thms[i],"note":n})
    else: print("missing",i, thms.get(i))
json.dump({"claims":claims},open('/verif/MANIFEST.json','w'),indent=1)

import re,glob,json
# claims: property -> (status, note)
notes=json.load(open('/verif/tools/notes.json'))
thms={}
for f in sorted(glob.glob('/verif/rocq/theories/Prop*.v')):
    for m in re.finditer(r'^Theorem (C\d\d)(\w*)',open(f).read(),re.M):
        thms.setdefault(m.group(1),[]).append(m.group(1)+m.group(2))
claims=[]
for l in open('/verif/properties.jsonl'):
    i=json.loads(l)['id']
    if i in thms:
        n=notes.get(i,{})
        claims.append({"property":i,"status":n.get("status","proved"),"theorems":thms[i],"note":n.get("note","")})
json.dump({"claims":claims},open('/verif/MANIFEST.json','w'),indent=1)
print(len(claims),sum(len(c["theorems"]) for c in claims))

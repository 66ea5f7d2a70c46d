import json,re,glob
props=[json.loads(l) for l in open('/verif/properties.jsonl')]
thms={}
for f in sorted(glob.glob('/verif/rocq/theories/Props*.v')):
    for m in re.finditer(r'^Theorem\s+(C\d\d)(\w*)',open(f).read(),re.M):
        thms.setdefault(m.group(1),[]).append(m.group(1)+m.group(2))
notes=json.load(open('/verif/tools/notes.json'))
claims=[]
for p in props:
    i=p['id']; t=thms.get(i,[])
    st=notes.get(i,{}).get('status') or ('proved' if t else 'partial')
    claims.append(dict(property=i,status=st,theorems=t,note=notes.get(i,{}).get('note','' if t else 'not yet proved')))
json.dump({"claims":claims},open('/verif/MANIFEST.json','w'),indent=1)
print({c['property']:(c['status'],len(c['theorems'])) for c in claims})

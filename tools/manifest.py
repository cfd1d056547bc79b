# regenerates MANIFEST.json from Prop*.v: theorem names starting Cxx_
import re,glob,json,os
thms={}
for f in sorted(glob.glob('/verif/rocq/theories/Prop*.v')):
    for m in re.finditer(r'^\s*(?:Theorem|Lemma)\s+((C\d+)_\w+)',open(f).read(),re.M):
        thms.setdefault(m.group(2),[]).append(m.group(1))
notes={}
np='/verif/tools/notes.json'
if os.path.exists(np): notes=json.load(open(np))
claims=[]
for l in open('/verif/properties.jsonl'):
    d=json.loads(l); c=d['id']
    n=notes.get(c,{})
    if c in thms:
        st=n.get('status') or ('partial' if any(t.endswith('_partial') or t.endswith('_refuted') for t in thms[c]) else 'proved')
        claims.append({"property":c,"status":st,"theorems":thms[c],"note":n.get('note','')})
json.dump({"claims":claims},open('/verif/MANIFEST.json','w'),indent=1)
print(len(claims), [c['property']+':'+c['status'] for c in claims])

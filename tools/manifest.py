# builds MANIFEST.json: theorem names grouped by their Cxx_ prefix; status from table
import re,json,glob
ST=json.load(open('/verif/tools/status.json')) if __import__('os').path.exists('/verif/tools/status.json') else {}
th={}
for f in sorted(glob.glob('/verif/rocq/theories/*.v')):
    for m in re.finditer(r'^\s*Theorem (C\d\d+)_(\w+)',open(f).read(),re.M):
        th.setdefault(m.group(1),[]).append(m.group(1)+'_'+m.group(2))
claims=[]
for l in open('/verif/properties.jsonl'):
    i=json.loads(l)['id']
    st=ST.get(i)
    if i in th or st:
        names=th.get(i,[])
        status=(st or {}).get('status') or ('partial' if any(n.endswith('_partial') or '_refuted' in n for n in names) else 'proved')
        claims.append(dict(property=i,status=status,theorems=names,note=(st or {}).get('note','')))
json.dump({"claims":claims},open('/verif/MANIFEST.json','w'),indent=1)
for c in claims: print(c['property'],c['status'],len(c['theorems']))
print('missing',[json.loads(l)['id'] for l in open('/verif/properties.jsonl') if json.loads(l)['id'] not in [c['property'] for c in claims]])

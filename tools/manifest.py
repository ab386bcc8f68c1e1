# Generates /verif/MANIFEST.json from the theorem names in rocq/theories/*Props.v and tools/notes.json:
# a theorem named Cnn_... belongs to property Cnn.
import re,glob,json
props=[json.loads(l)['id'] for l in open('properties.jsonl')]
notes=json.load(open('tools/notes.json'))
th={}
for f in sorted(glob.glob('rocq/theories/*Props*.v')):
    for m in re.finditer(r'^\s*Theorem (C(\d+)_\w+)',open(f).read(),re.M):
        th.setdefault('C'+m.group(2),[]).append(m.group(1))
claims=[]
for p in props:
    if p in th:
        n=notes.get(p,{})
        st=n.get('status') or ('partial' if any(t.endswith('_partial') for t in th[p]) else 'proved')
        claims.append(dict(property=p,status=st,theorems=th[p],note=n.get('note','')))
    elif p in notes and notes[p].get('status')=='not_applicable':
        claims.append(dict(property=p,status='not_applicable',theorems=[],note=notes[p]['note']))
json.dump(dict(claims=claims),open('MANIFEST.json','w'),indent=1)
print({c['property']:c['status'] for c in claims}, [p for p in props if p not in th])

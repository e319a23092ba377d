# Single source for properties.jsonl and MANIFEST.json.
# run: python3 tools/props.py   (from /verif)
import json
P=[]
def p(id,title,statement,quantifier,why,anchors,status='partial',theorems=(),note='in progress'):
    P.append(dict(id=id,title=title,statement=statement,quantifier=quantifier,why=why,anchors=list(anchors),status=status,theorems=list(theorems),note=note))

exec(open(__file__.replace('props.py','props_list.py')).read())

exec(open(__file__.replace('props.py','status.py')).read())
for x in P:
    if x['id'] in S:
        x['status'],x['theorems'],x['note']=S[x['id']]
import glob,re
known=set()
for f in glob.glob('rocq/theories/*.v'):
    known|=set(re.findall(r'^(?:Theorem|Lemma|Corollary)\s+(\w+)',open(f).read(),re.M))
for x in P:
    for th in x['theorems']:
        assert th in known,(x['id'],th)
P.sort(key=lambda x:int(x['id'][1:]))

with open('properties.jsonl','w') as f:
    for x in P:
        f.write(json.dumps(dict(id=x['id'],title=x['title'],statement=x['statement'],quantifier=x['quantifier'],why_tests_cant=x['why'],anchors=x['anchors']),ensure_ascii=True)+'\n')
json.dump({"claims":[dict(property=x['id'],status=x['status'],theorems=x['theorems'],note=x['note']) for x in P]},open('MANIFEST.json','w'),indent=1)
print(len(P),'properties')

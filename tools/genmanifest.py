#!/usr/bin/env python3
"""Collect the theorems Cnn_* of Props*.v and *Examples.v into MANIFEST.json.
tools/status.json gives {"Cnn": ["proved"|"partial"|"not_applicable", "note"]}."""
import re,json,glob,os
root=os.path.join(os.path.dirname(os.path.abspath(__file__)),'..')
th={}
for f in sorted(glob.glob(root+'/rocq/theories/*.v')):
    b=os.path.basename(f)
    if not (b.startswith('Props') or b.endswith('Examples.v')): continue
    for m in re.finditer(r'^\s*(?:Theorem|Lemma)\s+(C(\d\d)_\w+)',open(f).read(),re.M):
        th.setdefault('C'+m.group(2),[]).append(m.group(1))
st=json.load(open(root+'/tools/status.json'))
ids=[json.loads(l)['id'] for l in open(root+'/properties.jsonl')]
claims=[]
for i in ids:
    if i in st:
        s,n=st[i]; claims.append(dict(property=i,status=s,theorems=th.get(i,[]),note=n))
        if not th.get(i) and s!='not_applicable': print('NO THEOREMS',i)
    elif i in th: print('no status for',i)
json.dump({"claims":claims},open(root+'/MANIFEST.json','w'),indent=1,ensure_ascii=False)
print(len(claims),'claims',sum(len(c['theorems']) for c in claims),'theorems')

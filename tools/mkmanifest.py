#!/usr/bin/env python3
"""Builds MANIFEST.json: theorem names are collected from rocq/theories/*Props*.v by
their Cxx_ prefix; statuses and notes come from the table below."""
import re,json,glob,sys
sys.path.insert(0,'/verif/tools')
import mkprops
thms={}
for f in sorted(glob.glob('/verif/rocq/theories/*Props*.v')):
    for m in re.finditer(r'^Theorem\s+((C\d\d\d?)_\w+)',open(f).read(),re.M):
        thms.setdefault(m.group(2),[]).append(m.group(1))
NOTES={}
STATUS={}
exec(open('/verif/tools/notes.py').read())
claims=[]
for p in mkprops.P:
    i=p['id']
    t=thms.get(i,[])
    if not t and i not in STATUS: st='partial'
    else: st=STATUS.get(i,'proved')
    claims.append(dict(property=i,status=st,theorems=t,note=NOTES.get(i,'' if t else 'not yet modelled')))
json.dump(dict(claims=claims),open('/verif/MANIFEST.json','w'),indent=1)
print({s:sum(c['status']==s for c in claims) for s in('proved','partial','not_applicable')}, sum(len(c['theorems']) for c in claims))

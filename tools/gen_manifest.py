#!/usr/bin/env python3
# Generates /verif/MANIFEST.json and checks that every theorem named exists.
import json,re,glob,os
C=[]
def c(prop,status,theorems,note=""):
    C.append(dict(property=prop,status=status,theorems=theorems,note=note))
exec(open(os.path.join(os.path.dirname(__file__),"claims.py")).read())
root=os.path.join(os.path.dirname(__file__),"..")
src="".join(open(f).read() for f in glob.glob(root+"/rocq/theories/*.v"))
have=set(re.findall(r"^\s*(?:Theorem|Lemma|Corollary)\s+(\w+)",src,re.M))
for x in C:
    for t in x["theorems"]:
        if t not in have: print("missing theorem",x["property"],t)
props=[json.loads(l)["id"] for l in open(root+"/properties.jsonl")]
for p in props:
    if p not in [x["property"] for x in C]: print("no claim for",p)
json.dump({"claims":C},open(root+"/MANIFEST.json","w"),indent=1)

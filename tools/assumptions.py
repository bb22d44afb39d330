#!/usr/bin/env python3
# Prints the assumptions of every theorem named in MANIFEST.json (after a build
# in /verif/rocq) to /verif/ASSUMPTIONS.txt.
import json,re,glob,os,subprocess,tempfile
root=os.path.abspath(os.path.join(os.path.dirname(__file__),".."))
where={}
for f in glob.glob(root+"/rocq/theories/*.v"):
    m=os.path.basename(f)[:-2]
    for t in re.findall(r"^\s*(?:Theorem|Lemma|Corollary)\s+(\w+)",open(f).read(),re.M): where.setdefault(t,[]).append(m)
names=[]
for c in json.load(open(root+"/MANIFEST.json"))["claims"]:
    for t in c["theorems"]:
        if t not in names: names.append(t)
names.sort()
mods=sorted({where[t][0] for t in names})
d=tempfile.mkdtemp()
src="From Verif Require %s.\n"%" ".join(mods)
for t in names:
    assert len(where[t])==1,t
    src+='Print Assumptions %s.%s.\n'%(where[t][0],t)
open(d+"/a.v","w").write(src)
out=subprocess.run(["coqc","-Q",root+"/rocq/theories","Verif",d+"/a.v"],capture_output=True,text=True)
if out.returncode: print(out.stderr); raise SystemExit(1)
res=[l for l in out.stdout.split("\n") if l.strip()]
closed=sum(l=="Closed under the global context" for l in res)
print(len(names),"theorems,",closed,"closed under the global context")
with open(root+"/ASSUMPTIONS.txt","w") as f:
    f.write("Output of Print Assumptions for the theorems of MANIFEST.json, in this order:\n%s\n\n"%", ".join(names))
    if closed==len(names)==len(res): f.write("Each of the %d: Closed under the global context\n"%closed)
    else: f.write(out.stdout)

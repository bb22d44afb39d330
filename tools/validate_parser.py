#!/usr/bin/env python3
# Compares the model's trees and syntax errors with the parser's snapshots
# (/repo/crates/parser/tests/parse).  Needs a build in /verif/rocq and a large
# stack (ulimit -s unlimited).
import re,subprocess,glob,os,tempfile
root=os.path.abspath(os.path.join(os.path.dirname(__file__),".."))
base="/repo/crates/parser/tests/parse/"
kinds=re.findall(r"\|\s*([A-Z][A-Z0-9_]*)",re.search(r"Inductive kind.*?\.\n",open(root+"/rocq/theories/Kind.v").read(),re.S).group(0))
tests=[]
for f in sorted(glob.glob(base+"**/*.wat",recursive=True)):
    snap=open(f[:-4]+".snap",newline="").read().split("---",2)[2].lstrip("\n")
    m=re.search(r"^(error|warning)",snap,re.M)
    tree,errs=(snap[:m.start()],snap[m.start():]) if m else (snap,"")
    exp=[re.sub(r"\\u\{([0-9a-f]+)\}",lambda x: chr(int(x.group(1),16)),l) for l in tree.rstrip().split("\n")]
    ee=re.findall(r"^error: (.*?)\n\s*┌─ [^\n]*?:(\d+):(\d+)$",errs,re.M|re.S)
    tests.append((os.path.basename(f),open(f,newline="").read(),exp,ee))
v='''From Coq Require Import String List NArith Bool Arith.
From Verif Require Import Text Kind Green Lexer Winnow Grammar Red LineIndex Cursor Doc Ast Binder Nav Check.
Import ListNotations.
Local Open Scope string_scope.
Definition kn (k : kind) : string := match k with %s end.
Definition hex (t : text) : string := String.concat "," (map (fun c => NilEmpty.string_of_uint (N.to_uint c)) t).
Definition sn (n : nat) : string := NilEmpty.string_of_uint (Nat.to_uint n).
Definition sh (e : elem) : string :=
  sn (length (ups e)) ++ ";" ++ kn (gkind (el e)) ++ ";" ++ sn (estart e) ++ ";" ++ sn (eend e) ++ ";"
  ++ match el e with Tok _ t => "t" ++ hex t | _ => "" end.
Definition se (src : text) (e : err) : string :=
  match line_col (new_line_index src) (e_start e) with
  | Some (a, b) => sn a ++ ";" ++ sn b ++ ";" ++ hex (show_msg (e_msg e)) | None => "PANIC" end.
Definition go (s : text) : string :=
  String.concat "~" (map sh (descendants_with_tokens (root_of (tree_of s)))) ++ "#" ++ String.concat "~" (map (se s) (errs_of s)).
'''%" ".join('| %s => "%s"'%(k,k) for k in kinds)
v=v.replace("Require Import String List NArith Bool Arith.","Require Import String List NArith Bool Arith DecimalString.")
for i,t in enumerate(tests):
    v+='Eval vm_compute in ("@%d@" ++ go (%snil) ++ "@").\n'%(i,"".join("%d%%N :: "%ord(c) for c in t[1]))
d=tempfile.mkdtemp(); open(d+"/p.v","w").write(v)
out=subprocess.run(["coqc","-Q",root+"/rocq/theories","Verif",d+"/p.v"],capture_output=True,text=True)
print(out.stderr[:500])
def txt(h): return "".join(chr(int(x)) for x in h.split(",") if x)
def dbg(t):
    r=""
    for c in t: r+={"\n":"\\n","\r":"\\r","\t":"\\t",'"':'\\"',"\\":"\\\\"}.get(c,c)
    return '"'+r+'"'
def shown(t):
    b=t.encode()
    if len(b)<25: return dbg(t)
    for i in range(21,25):
        try: return dbg(b[:i].decode())[:-1]+' ..."'
        except UnicodeDecodeError: pass
ok=0
for m in re.finditer(r'"@(\d+)@(.*?)@"',out.stdout,re.S):
    i=int(m.group(1)); a,b=re.sub(r"\s","",m.group(2)).split("#")
    got=[]
    for x in a.split("~"):
        n,k,s,e,t=x.split(";")
        got.append("  "*int(n)+"%s@%s..%s"%(k,s,e)+(" "+shown(txt(t[1:])) if t else ""))
    ge=[(txt(x.split(";")[2]),int(x.split(";")[0])+1) for x in b.split("~") if x]
    xe=[(re.sub(r"\s*\n\s*"," ",e[0]),int(e[1])) for e in tests[i][3]]
    # an offset inside or after a line break is shown on another line by codespan
    if got==tests[i][2] and sorted(x[0] for x in ge)==sorted(x[0] for x in xe) and all(abs(p[1]-q[1])<=1 for p,q in zip(sorted(ge),sorted(xe))): ok+=1
    else: print("DIFF",tests[i][0],got==tests[i][2],[ (x,y) for x,y in zip(got,tests[i][2]) if x!=y][:3],ge,xe)
print(ok,"of",len(tests))

"""Run the model of the formatter on the inputs of the repository's formatter
tests and compare with the recorded snapshots, character by character (up to
line ends at the end of the text)."""
import re,json,subprocess,glob,os,sys,unicodedata
T='/repo/crates/formatter/tests/'
def snap(f): return open(f,newline='').read().split('---\n',2)[2].strip('\n')
cases=[]
for f in sorted(glob.glob('/repo/crates/parser/tests/parse/*.wat')):
    n=os.path.basename(f)[:-4]
    s=T+'parser/%s.snap'%n
    if os.path.exists(s): cases.append((n,open(f,newline='').read(),'false',snap(s)))
    else: print('no snapshot',n)
d=T+'fmt/'
cases.append(('ignore',open(d+'ignore/fixture.wat',newline='').read(),'false',snap(d+'ignore/fixture.snap')))
for x,b in (('enabled','true'),('disabled','false')):
    cases.append(('comments-'+x,open(d+'format-comments/fixture.wat',newline='').read(),b,snap(d+'format-comments/fixture.%s.snap'%x)))
v='''From Coq Require Import String List NArith Bool Arith.
From Verif Require Import Text Kind Green Lexer Winnow Doc Format.
Import ListNotations.
Local Open Scope string_scope.
Definition set fc := mk_settings (mk_options fc (T "fmt-ignore") 2) false false (rest_fits (@length _) 80) (@length _).
Fixpoint drop_nl (t : text) := match t with c :: r => if N.eqb c c_lf then drop_nl r else t | [] => [] end.
Definition trim_nl (t : text) := drop_nl (rev (drop_nl t)).
Definition out fc src := trim_nl (format (set fc) (tree_of src)).
Fixpoint common (a b : text) : nat := match a, b with x :: a', y :: b' => if N.eqb x y then S (common a' b') else 0 | _, _ => 0 end.
'''
lit=lambda s:'('+''.join('%d%%N :: '%ord(c) for c in s)+'nil)'
only=sys.argv[1:]
for i,(n,s,b,e) in enumerate(cases):
    if only and n not in only: continue
    v+='Eval vm_compute in (%d, let a := out %s %s in let b := rev (trim_nl %s) in let b := trim_nl b in if text_eqb a b then (true, 0, []) else let k := common (rev a) (rev b) in (false, k, firstn 80 (skipn (k - 30) (rev a)))).\n'%(i,b,lit(s),lit(e))
os.makedirs('/tmp/val',exist_ok=True)
open('/tmp/val/fmt.v','w').write(v)
out=subprocess.run(['bash','-c','ulimit -s unlimited; coqc -Q /verif/rocq/theories Verif /tmp/val/fmt.v'],capture_output=True,text=True)
print(out.stderr[:800])
ok=0
for m in re.finditer(r'= \((\d+), \((\w+), (\d+),\s*\[(.*?)\]\)\)',out.stdout,re.S):
    i=int(m.group(1))
    if m.group(2)=='true': ok+=1
    else:
        k=int(m.group(3)); got=''.join(chr(int(x)) for x in re.findall(r'\d+',m.group(4)))
        print('DIFF',cases[i][0],k,'\n got',repr(got),'\n exp',repr(cases[i][3][max(0,k-30):k+50]))
print(ok,'of',len(cases))

import re,json,subprocess,glob,os
base='/repo/crates/service/tests/diagnostics/'
tests=[]
for f in sorted(glob.glob(base+'*.rs')):
    mod=os.path.basename(f)[:-3]
    if mod=='mod': continue
    s=open(f).read()
    for m in re.finditer(r'fn (\w+)\(\) \{(.*?)\n\}\n',s,re.S):
        name,body=m.groups()
        sm=re.search(r'let source = (?:r#"(.*?)"#|"((?:[^"\\]|\\.)*)");',body,re.S)
        if not sm: print('skip',mod,name); continue
        src=sm.group(1) if sm.group(1) is not None else sm.group(2).encode().decode('unicode_escape')
        if 'is_empty()' in body: exp=[]
        else:
            fs=glob.glob(base+'snapshots/*%s__%s.snap'%(mod,name))
            assert len(fs)==1,(mod,name,fs)
            j=json.loads(open(fs[0]).read().split('---',2)[2])
            exp=j['items']
        tests.append((mod+'::'+name,src,exp))
def r(x): return '%d:%d-%d:%d'%(x['start']['line'],x['start']['character'],x['end']['line'],x['end']['character'])
def ser(items):
    out=[]
    for d in items:
        rel=''.join('['+r(y['location']['range'])+' '+y['message']+']' for y in d.get('relatedInformation') or [])
        out.append(r(d['range'])+'|'+d['message']+'|'+rel)
    return sorted(out)
v='''From Coq Require Import String List NArith Bool Arith Lia.
From Verif Require Import Text Kind Green Lexer Winnow Red LineIndex Cursor Doc Ast Binder Nav InstrMeta Types Check.
Local Open Scope string_scope.
Definition sh (t:text) : string := fold_right (fun c s => String (Ascii.ascii_of_N c) s) EmptyString t.
Definition sn n := sh (show_nat n).
Definition sr (r:range) := match r with ((a,b),(c,d)) => sn a ++ ":" ++ sn b ++ "-" ++ sn c ++ ":" ++ sn d end.
Definition sd d := sr (d_range d) ++ "|" ++ sh (d_message d) ++ "|" ++ match d_related d with None => "" | Some l => String.concat "" (map (fun p => "[" ++ sr (fst p) ++ " " ++ sh (snd p) ++ "]") l) end.
Definition run (s : text) := match check s with Ans l => String.concat "~" (map sd l) | _ => "PANIC" end.
'''
for i,(n,s,e) in enumerate(tests):
    t='('+''.join('%d%%N :: '%ord(c) for c in s)+'nil)'
    v+='Eval vm_compute in ("@%d@" ++ run %s ++ "@").\n'%(i,t)
open('/tmp/val/d.v','w').write(v)
out=subprocess.run(['coqc','-Q','/verif/rocq/theories','Verif','/tmp/val/d.v'],capture_output=True,text=True)
print(out.stderr[:500])
o=re.sub(r'\n\s*','',out.stdout) if False else out.stdout
ok=0
for m in re.finditer(r'"@(\d+)@(.*?)@"',o,re.S):
    i=int(m.group(1)); got=sorted(x for x in m.group(2).split('~') if x)
    exp=ser(tests[i][2])
    if [re.sub(r'\s+','',g) for g in got]==[re.sub(r'\s+','',g) for g in exp]: ok+=1
    else: print('DIFF',tests[i][0],'\n got',got,'\n exp',exp)
print(ok,'of',len(tests))

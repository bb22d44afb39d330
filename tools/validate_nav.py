"""Run the model on the inputs of the repository's tests of go to definition,
declaration and type definition, references, rename and prepare rename, and
compare with what the tests expect."""
import re,json,subprocess,os
base='/repo/crates/service/tests/'
def lit(body):
    m=re.search(r'let source =\s*(?:r#"(.*?)"#|"((?:[^"\\]|\\.)*)");',body,re.S)
    return m.group(1) if m.group(1) is not None else m.group(2).encode().decode('unicode_escape')
def r(x): return '%d:%d-%d:%d'%(x['start']['line'],x['start']['character'],x['end']['line'],x['end']['character'])
def shown(x):
    if x is None: return 'NONE'
    if 'Ok' in x if isinstance(x,dict) else False: x=x['Ok']
    if x is None: return 'NONE'
    if isinstance(x,list): return '~'.join(r(y['range']) for y in x)
    if 'changes' in x: return '~'.join(r(y['range'])+'='+y['newText'] for y in x['changes']['untitled:test'])
    if 'range' in x: return r(x['range'])
    return r(x)
G={'goto_definition':'sans sresp (goto_definition %s %s)','goto_declaration':'sans sresp (goto_declaration %s %s)',
   'goto_type_definition':'sans sresp (goto_type_definition %s %s)','find_references':'sans (sl sr) (find_references %s %s %s)',
   'prepare_rename':'sans sr (prepare_rename %s %s)','rename':'sren (rename %s %s (T "%s"))'}
cases=[]
for f,pre in [('definition/goto_definition.rs','definition__goto_definition__'),('definition/goto_declaration.rs','definition__goto_declaration__'),
              ('definition/goto_type_definition.rs','definition__goto_type_definition__'),('references/mod.rs','references__'),
              ('rename/rename.rs','rename__rename__'),('rename/prepare_rename.rs','rename__prepare_rename__')]:
    s=open(base+f).read()
    for m in re.finditer(r'#\[test\]\nfn (\w+)\(\) \{(.*?)\n\}\n',s,re.S):
        n,b=m.groups(); k=0; src=lit(b)
        for c in re.finditer(r'service\s*\.\s*(goto_definition|goto_declaration|goto_type_definition|find_references|prepare_rename|rename)\(\s*create_params\(\s*uri(?:\.clone\(\))?,\s*Position::new\((\d+), (\d+)\)(?:,\s*([^)]*?|"[^"]*"),?)?\s*\)\s*\)',b):
            rest=b[c.end():]; mth,l,q,x=c.groups()
            if re.match(r'\s*\.is_none\(\)',rest): e='NONE'
            elif re.match(r',\s*Some\(GotoDefinitionResponse::Array\(locations\)\) if locations.is_empty',rest): e=''
            elif (z:=re.match(r',\s*Err\("(.*?)"',rest)): e='ERR'+('invalid' if 'Invalid' in z.group(1) else 'cant')
            elif (z:=re.match(r',\s*Ok\(None\)',rest)): e='NONE'
            else:
                k+=1
                sn=base+f.split('/')[0]+'/snapshots/features__%s%s%s.snap'%(pre,n,'' if k==1 else '-%d'%k)
                e=shown(json.loads(open(sn).read().split('---',2)[2]))
            a=['(%s)'%''.join([ '%d%%N :: '%ord(ch) for ch in src]+['nil']),'(%s,%s)'%(l,q)]+([x.strip('"')] if x else [])
            cases.append((f+'::'+n,G[mth]%tuple(a),e))
        assert k==len(re.findall('assert_json_snapshot!',b)),(f,n)
v='''From Coq Require Import String List NArith Bool Arith.
From Verif Require Import Text Kind Green Red LineIndex Cursor Doc Ast Binder Nav InstrMeta Types Check Features.
Import ListNotations.
Local Open Scope string_scope.
Definition sh (t:text) : string := fold_right (fun c s => String (Ascii.ascii_of_N c) s) EmptyString t.
Definition sn n := sh (show_nat n).
Definition sp (p : nat * nat) := sn (fst p) ++ ":" ++ sn (snd p).
Definition sr (r:(nat * nat) * (nat * nat)) := sp (fst r) ++ "-" ++ sp (snd r).
Definition sans {A} (f : A -> string) (a : ans A) := match a with Ans x => f x | NoAns => "NONE" | Panics => "PANIC" end.
Definition sl {A} (f : A -> string) (l : list A) := String.concat "~" (map f l).
Definition sresp (x : def_response) := match x with Scalar q => sr q | Array l => sl sr l end.
Definition sren (x : rename_result) := match x with InvalidName => "ERRinvalid" | CantRename => "ERRcant" | NoEdit => "NONE" | RenamePanics => "PANIC"
  | Edits l => sl (fun e => sr (fst e) ++ "=" ++ sh (snd e)) l end.
'''
for i,(n,g,e) in enumerate(cases): v+='Eval vm_compute in ("@@%d@@" ++ %s ++ "@@").\n'%(i,g)
os.makedirs('/tmp/val',exist_ok=True)
open('/tmp/val/n.v','w').write(v)
out=subprocess.run(['coqc','-Q','/verif/rocq/theories','Verif','/tmp/val/n.v'],capture_output=True,text=True)
print(out.stderr[:800])
ok=0
for m in re.finditer(r'"@@(\d+)@@(.*?)@@"',out.stdout,re.S):
    i=int(m.group(1)); sq=lambda x: re.sub(r'\s+','',x)
    if sq(m.group(2))==sq(cases[i][2]): ok+=1
    else: print('DIFF',cases[i][0],'\n got',m.group(2),'\n exp',cases[i][2])
print(ok,'of',len(cases))

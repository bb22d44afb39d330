"""Run the model on the inputs of the repository's feature tests and compare
with the recorded snapshots (folding, selection, symbols, call hierarchy,
inlay hints, semantic tokens, hover, code actions, completion)."""
import re,json,subprocess,glob,os
base='/repo/crates/service/tests/'
def lit(body):
    m=re.search(r'(?:let source|const SOURCE: &str) =\s*(?:r#"(.*?)"#|"((?:[^"\\]|\\.)*)");',body,re.S)
    if not m: return None
    return m.group(1) if m.group(1) is not None else m.group(2).encode().decode('unicode_escape')
def snap(feature,name):
    f=base+'%s/snapshots/features__%s__%s.snap'%(feature,feature,name)
    return json.loads(open(f).read().split('---',2)[2])
def tests(feature):
    s=open(base+feature+'/mod.rs').read()
    for m in re.finditer(r'#\[test\]\nfn (\w+)\(\) \{(.*?)\n\}\n',s,re.S):
        n,b=m.groups()
        yield n,lit(b) or lit(s),[(int(x),int(y)) for x,y in re.findall(r'Position::new\((\d+), (\d+)\)',b)]
def r(x): return '%d:%d-%d:%d'%(x['start']['line'],x['start']['character'],x['end']['line'],x['end']['character'])
def pos(p): return '(%d,%d)'%p
def rng(a,b): return '(%s,%s)'%(pos(a),pos(b))
cases=[]  # (label, source, gallina, expected)
for n,s,p in tests('folding_range'):
    e='~'.join('%d:%d-%d:%d'%(x['startLine'],x['startCharacter'],x['endLine'],x['endCharacter']) for x in snap('folding_range',n))
    cases.append(('folding::'+n,s,'sans (sl sr) (folding_range %s)',e))
def chain(x): return [r(x['range'])]+(chain(x['parent']) if x.get('parent') else [])
for n,s,p in tests('selection_range'):
    e='~'.join('<'.join(chain(x)) for x in snap('selection_range',n))
    cases.append(('selection::'+n,s,'sans (sl (fun c => String.concat "<" (map sr c))) (selection_range %%s [%s])'%';'.join(map(pos,p)),e))
def ds(x): return '%s %d %s %s {%s}'%(x['name'],x['kind'],r(x['range']),r(x['selectionRange']),';'.join(map(ds,x.get('children') or [])))
for n,s,p in tests('document_symbol'):
    cases.append(('symbols::'+n,s,'sans (sl sds) (document_symbol %s)','~'.join(map(ds,snap('document_symbol',n)))))
def it(x): return '%s|%s|%s|%s'%(x['name'],x['detail'],r(x['range']),r(x['selectionRange']))
for n,s,p in tests('call_hierarchy'):
    pr=snap('call_hierarchy',n)
    cases.append(('prepare::'+n,s,'sans (sl sit) (prepare_call_hierarchy %%s %s)'%pos(p[0]),'~'.join(map(it,pr))))
    x=pr[0]['range']; g=rng((x['start']['line'],x['start']['character']),(x['end']['line'],x['end']['character']))
    d='incoming' if 'incoming' in n else 'outgoing'; k='from' if d=='incoming' else 'to'
    e='~'.join(it(y[k])+'@'+','.join(map(r,y['fromRanges'])) for y in snap('call_hierarchy',n+'-2'))
    cases.append((d+'::'+n,s,'sans (sl scall) (%s_calls %%s %s)'%(d,g),e))
for n,s,p in tests('inlay_hint'):
    e='~'.join('%d:%d %s'%(y['position']['line'],y['position']['character'],y['label']) for y in snap('inlay_hint',n))
    cases.append(('inlay::'+n,s,'sans (sl shint) (inlay_hint %%s %s)'%rng((0,0),p[-1]),e))
types='["namespace";"type";"class";"enum";"interface";"struct";"typeParameter";"parameter";"variable";"property";"enumMember";"event";"function";"method";"macro";"keyword";"modifier";"comment";"string";"number";"regexp";"operator"]'
for n,s,p in tests('semantic_tokens'):
    dd=snap('semantic_tokens',n)['data']; e='~'.join('%d %d %d %d'%tuple(dd[i:i+4]) for i in range(0,len(dd),5))
    g='semantic_tokens_full types %s' if n=='full' else 'semantic_tokens_range types %%s %s'%rng(p[0],p[1])
    cases.append(('tokens::'+n,s,'sans (sl sst) (%s)'%g,e))
def hc(c):
    if isinstance(c,list): return 'A:'+'&'.join(x['value'] for x in c)
    return ('M:' if 'kind' in c else 'S:')+c['value']
for n,s,p in tests('hover'):
    x=snap('hover',n); e='NONE' if x is None else hc(x['contents'])+'@'+r(x['range'])
    cases.append(('hover::'+n,s,'sans shover (hover %%s %s)'%pos(p[0]),e))
for f in ['fix_invalid_mem_arg','func_header_split','params_join']:
    src=open(base+'code_action/'+f+'.rs').read()
    for m in re.finditer(r'#\[test\]\nfn (\w+)\(\) \{(.*?)\n\}\n',src,re.S):
        n,b=m.groups(); p=[(int(x),int(y)) for x,y in re.findall(r'Position::new\((\d+), (\d+)\)',b)]
        if 'is_none()' in b: e='NONE'
        else:
            x=json.loads(open(base+'code_action/snapshots/features__code_action__%s__%s.snap'%(f,n)).read().split('---',2)[2])
            e='~'.join(y['title']+'>'+','.join(r(z['range'])+'='+z['newText'] for z in y['edit']['changes']['untitled:test']) for y in x)
        cases.append(('action::'+f+'::'+n,lit(b),'sans (sl sact) (code_action %%s (mk_wanted true true) %s %s)'%(pos(p[0]),pos(p[1])),e))
KIND={24:'op',7:'class',6:'var',3:'fn',8:'iface',15:'snip',14:'kw'}
for fn in sorted(glob.glob(base+'completion/*.rs')):
    f=os.path.basename(fn)[:-3]
    src=open(fn).read()
    for m in re.finditer(r'#\[test\]\nfn (\w+)\(\) \{(.*?)\n\}\n',src,re.S):
        n,b=m.groups(); p=[(int(x),int(y)) for x,y in re.findall(r'Position::new\((\d+), (\d+)\)',b)]
        if 'is_none()' in b: e='NONE'
        else:
            x=json.loads(open(base+'completion/snapshots/features__completion__%s__%s.snap'%(f,n)).read().split('---',2)[2])
            e='NONE' if x is None else '~'.join('%s|%s|%s|%s|%s'%(y['label'],y.get('insertText',''),KIND[y['kind']],y.get('labelDetails',{}).get('description',''),(y.get('documentation') or {}).get('value','')) for y in x)
        if lit(b) is None or len(p)!=1: print('SKIP',f,n); continue
        cases.append(('completion::'+f+'::'+n,lit(b),'sans (sl sitem) (completion %%s %s)'%pos(p[0]),e))
v='''From Coq Require Import String List NArith ZArith Bool Arith Lia.
From Verif Require Import Text Kind Green Lexer Winnow Red LineIndex Cursor Doc Ast Binder Nav InstrMeta Types Check Features SemTok Hover InstrNames Completion Action.
Import ListNotations.
Local Open Scope string_scope.
Definition sh (t:text) : string := fold_right (fun c s => String (Ascii.ascii_of_N c) s) EmptyString t.
Definition sn n := sh (show_nat n).
Definition sp (p : nat * nat) := sn (fst p) ++ ":" ++ sn (snd p).
Definition sr (r:range) := sp (fst r) ++ "-" ++ sp (snd r).
Definition sans {A} (f : A -> string) (a : ans A) := match a with Ans x => f x | NoAns => "NONE" | Panics => "PANIC" end.
Definition sl {A} (f : A -> string) (l : list A) := String.concat "~" (map f l).
Definition sk k := match k with KModule => "2" | KFunction => "12" | KVariable => "13" end.
Fixpoint sds (d : doc_symbol) : string :=
  sh (ds_name d) ++ " " ++ sk (ds_kind d) ++ " " ++ sr (ds_range d) ++ " " ++ sr (ds_selection d) ++ " {"
  ++ match ds_children d with Some l => String.concat ";" (map sds l) | None => "" end ++ "}".
Definition sit i := sh (it_name i) ++ "|" ++ sh (it_detail i) ++ "|" ++ sr (it_range i) ++ "|" ++ sr (it_selection i).
Definition scall (c : call_item * list range) := sit (fst c) ++ "@" ++ String.concat "," (map sr (snd c)).
Definition shint (h : hint) := sp (fst h) ++ " " ++ sh (snd h).
Definition sst (t : semtok) := sn (st_line t) ++ " " ++ sn (Z.to_nat (st_start t)) ++ " " ++ sn (st_length t) ++ " " ++ sn (st_type t).
Definition sc c := match c with Snippet x => "S:" ++ sh x | Markup x => "M:" ++ sh x | Snippets l => "A:" ++ String.concat "&" (map sh l) end.
Definition shover (h : hover_answer) := sc (fst h) ++ "@" ++ sr (snd h).
Definition sact (a : action) := sh (a_title a) ++ ">" ++ String.concat "," (map (fun e => sr (fst e) ++ "=" ++ sh (snd e)) (a_edits a)).
Definition so o := match o with Some x => sh x | None => "" end.
Definition sik k := match k with IOperator => "op" | IClass => "class" | IVariable => "var" | IFunction => "fn" | IInterface => "iface" | ISnippet => "snip" | IKeyword => "kw" end.
Definition sitem (i : item) := sh (c_label i) ++ "|" ++ so (c_insert i) ++ "|" ++ sik (c_kind i) ++ "|" ++ so (c_detail i) ++ "|" ++ so (c_doc i).
Definition types := %s.
'''%types
for i,(n,s,g,e) in enumerate(cases):
    t='('+''.join('%d%%N :: '%ord(c) for c in s)+'nil)'
    v+='Eval vm_compute in ("@@%d@@" ++ %s ++ "@@").\n'%(i,g%t)
os.makedirs('/tmp/val',exist_ok=True)
open('/tmp/val/f.v','w').write(v)
out=subprocess.run(['coqc','-Q','/verif/rocq/theories','Verif','/tmp/val/f.v'],capture_output=True,text=True)
print(out.stderr[:800])
ok=0
for m in re.finditer(r'"@@(\d+)@@(.*?)@@"',out.stdout,re.S):
    i=int(m.group(1)); sq=lambda x: re.sub(r'\s+','',x.replace('""','"'))
    if sq(m.group(2))==sq(cases[i][3]): ok+=1
    else: print('DIFF',cases[i][0],'\n got',m.group(2),'\n exp',cases[i][3])
print(ok,'of',len(cases))

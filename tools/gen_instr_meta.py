#!/usr/bin/env python3
# Generates rocq/theories/InstrMeta.v from the table in
# crates/service/src/data_set/instr_meta.rs.
import re,sys
src=open('/repo/crates/service/src/data_set/instr_meta.rs').read()
ty={'I32':'VI32','I64':'VI64','F32':'VF32','F64':'VF64','V128':'VV128','FuncRef':'VFuncRef','ExternRef':'VExternRef'}
def types(s):
    out=[]
    for m in re.finditer(r'OperandType::(?:Val\(ValType::(\w+)\)|(Generic))',s):
        out.append('OVal '+ty[m.group(1)] if m.group(1) else 'OGeneric')
    assert s.count('OperandType::')==len(out),s
    return '['+'; '.join(out)+']'
pat=re.compile(r'map\.insert\(\s*"([^"]+)",\s*InstrMeta \{\s*bin_op: "([^"]*)",\s*operands_count: (\d+),\s*params: vec!\[(.*?)\],\s*results: vec!\[(.*?)\],\s*\},\s*\);',re.S)
rows=[]
n=0
for m in pat.finditer(src):
    n+=1
    line=src[:m.start()].count('\n')+1
    rows.append((m.group(1),m.group(3),types(m.group(4)),types(m.group(5)),line,m.group(2)))
assert n==src.count('map.insert('),(n,src.count('map.insert('))
last={}
for r in rows: last[r[0]]=r
dups=[r for r in rows if last[r[0]] is not r]
out='''(** Generated by tools/gen_instr_meta.py from
    crates/service/src/data_set/instr_meta.rs ([INSTR_METAS], lines 16-%d).
    Of two entries with the same name the later one counts, as with
    [HashMap::insert]; overwritten here: %s. *)

From Coq Require Import String List.
Import ListNotations.
Local Open Scope string_scope.

(** [ValType], types_analyzer.rs:139-148. *)
Inductive valtype : Type := VI32 | VI64 | VF32 | VF64 | VV128 | VFuncRef | VExternRef.
(** [OperandType], data_set/instr_meta.rs:11-15. *)
Inductive optype : Type := OVal (v : valtype) | OGeneric.
(** [InstrMeta], data_set/instr_meta.rs:5-10. *)
Record instr_meta : Type := mk_meta
  { m_bin_op : string; m_operands_count : nat; m_params : list optype; m_results : list optype }.

Definition instr_table : list (string * instr_meta) := [
'''%(src.count('\n'),', '.join('%s (line %d)'%(r[0],r[4]) for r in dups))
out+=';\n'.join('  ("%s", mk_meta "%s" %s %s %s)'%(r[0],r[5],r[1],r[2],r[3]) for r in rows if last[r[0]] is r)
out+='\n].\n'
open('/verif/rocq/theories/InstrMeta.v','w').write(out)
print(len(last),'entries',[(r[0],r[4]) for r in dups])

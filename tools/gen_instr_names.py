"""Generate rocq/theories/InstrNames.v from data_set/mod.rs."""
import re
s=open('/repo/crates/service/src/data_set/mod.rs').read()
b=re.search(r'INSTR_NAMES: \[&str; (\d+)\] = \[(.*?)\];',s,re.S)
names=re.findall(r'"([^"]*)"',b.group(2)); assert len(names)==int(b.group(1))
o='''(** Generated by tools/gen_instr_names.py: [INSTR_NAMES],
    crates/service/src/data_set/mod.rs:8-261. *)

From Coq Require Import String List.
Import ListNotations.
Local Open Scope string_scope.

(** [INSTR_NAMES], data_set/mod.rs:8-261. *)
Definition instr_names : list string := [
'''
o+=';\n'.join('  "%s"'%n for n in names)+'\n].\n'
open('/verif/rocq/theories/InstrNames.v','w').write(o)

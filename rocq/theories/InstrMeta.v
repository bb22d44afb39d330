(** Generated by tools/gen_instr_meta.py from
    crates/service/src/data_set/instr_meta.rs ([INSTR_METAS], lines 16-4570).
    Of two entries with the same name the later one counts, as with
    [HashMap::insert]; overwritten here: select (line 27). *)

From Coq Require Import String List.
Import ListNotations.
Local Open Scope string_scope.

(** [ValType], types_analyzer.rs:139-148. *)
Inductive valtype : Type := VI32 | VI64 | VF32 | VF64 | VV128 | VFuncRef | VExternRef.
(** [OperandType], data_set/instr_meta.rs:11-15. *)
Inductive optype : Type := OVal (v : valtype) | OGeneric.
(** [InstrMeta], data_set/instr_meta.rs:5-10. *)
Record instr_meta : Type := mk_meta
  { m_bin_op : string; m_operands_count : nat; m_params : list optype; m_results : list optype }.

Definition instr_table : list (string * instr_meta) := [
  ("drop", mk_meta "0x1A" 0 [OGeneric] []);
  ("select", mk_meta "0x1C" 1 [OGeneric; OGeneric; OVal VI32] [OGeneric]);
  ("local.get", mk_meta "0x20" 1 [] [OGeneric]);
  ("local.set", mk_meta "0x21" 1 [OGeneric] []);
  ("local.tee", mk_meta "0x22" 1 [OGeneric] [OGeneric]);
  ("global.get", mk_meta "0x23" 1 [] [OGeneric]);
  ("global.set", mk_meta "0x24" 1 [OGeneric] []);
  ("table.get", mk_meta "0x25" 1 [OVal VI32] [OGeneric]);
  ("table.set", mk_meta "0x26" 1 [OVal VI32; OGeneric] []);
  ("i32.load", mk_meta "0x28" 1 [OVal VI32] [OVal VI32]);
  ("i64.load", mk_meta "0x29" 1 [OVal VI32] [OVal VI64]);
  ("f32.load", mk_meta "0x2A" 1 [OVal VI32] [OVal VF32]);
  ("f64.load", mk_meta "0x2B" 1 [OVal VI32] [OVal VF64]);
  ("i32.load8_s", mk_meta "0x2C" 1 [OVal VI32] [OVal VI32]);
  ("i32.load8_u", mk_meta "0x2D" 1 [OVal VI32] [OVal VI32]);
  ("i32.load16_s", mk_meta "0x2E" 1 [OVal VI32] [OVal VI32]);
  ("i32.load16_u", mk_meta "0x2F" 1 [OVal VI32] [OVal VI32]);
  ("i64.load8_s", mk_meta "0x30" 1 [OVal VI32] [OVal VI64]);
  ("i64.load8_u", mk_meta "0x31" 1 [OVal VI32] [OVal VI64]);
  ("i64.load16_s", mk_meta "0x32" 1 [OVal VI32] [OVal VI64]);
  ("i64.load16_u", mk_meta "0x33" 1 [OVal VI32] [OVal VI64]);
  ("i64.load32_s", mk_meta "0x34" 1 [OVal VI32] [OVal VI64]);
  ("i64.load32_u", mk_meta "0x35" 1 [OVal VI32] [OVal VI64]);
  ("i32.store", mk_meta "0x36" 1 [OVal VI32; OVal VI32] []);
  ("i64.store", mk_meta "0x37" 1 [OVal VI32; OVal VI64] []);
  ("f32.store", mk_meta "0x38" 1 [OVal VI32; OVal VF32] []);
  ("f64.store", mk_meta "0x39" 1 [OVal VI32; OVal VF64] []);
  ("i32.store8", mk_meta "0x3A" 1 [OVal VI32; OVal VI32] []);
  ("i32.store16", mk_meta "0x3B" 1 [OVal VI32; OVal VI32] []);
  ("i64.store8", mk_meta "0x3C" 1 [OVal VI32; OVal VI64] []);
  ("i64.store16", mk_meta "0x3D" 1 [OVal VI32; OVal VI64] []);
  ("i64.store32", mk_meta "0x3E" 1 [OVal VI32; OVal VI64] []);
  ("memory.size", mk_meta "0x3F" 0 [] [OVal VI32]);
  ("memory.grow", mk_meta "0x40" 0 [OVal VI32] [OVal VI32]);
  ("i32.const", mk_meta "0x41" 1 [] [OVal VI32]);
  ("i64.const", mk_meta "0x42" 1 [] [OVal VI64]);
  ("f32.const", mk_meta "0x43" 1 [] [OVal VF32]);
  ("f64.const", mk_meta "0x44" 1 [] [OVal VF64]);
  ("i32.eqz", mk_meta "0x45" 0 [OVal VI32] [OVal VI32]);
  ("i32.eq", mk_meta "0x46" 0 [OVal VI32; OVal VI32] [OVal VI32]);
  ("i32.ne", mk_meta "0x47" 0 [OVal VI32; OVal VI32] [OVal VI32]);
  ("i32.lt_s", mk_meta "0x48" 0 [OVal VI32; OVal VI32] [OVal VI32]);
  ("i32.lt_u", mk_meta "0x49" 0 [OVal VI32; OVal VI32] [OVal VI32]);
  ("i32.gt_s", mk_meta "0x4A" 0 [OVal VI32; OVal VI32] [OVal VI32]);
  ("i32.gt_u", mk_meta "0x4B" 0 [OVal VI32; OVal VI32] [OVal VI32]);
  ("i32.le_s", mk_meta "0x4C" 0 [OVal VI32; OVal VI32] [OVal VI32]);
  ("i32.le_u", mk_meta "0x4D" 0 [OVal VI32; OVal VI32] [OVal VI32]);
  ("i32.ge_s", mk_meta "0x4E" 0 [OVal VI32; OVal VI32] [OVal VI32]);
  ("i32.ge_u", mk_meta "0x4F" 0 [OVal VI32; OVal VI32] [OVal VI32]);
  ("i64.eqz", mk_meta "0x50" 0 [OVal VI64] [OVal VI32]);
  ("i64.eq", mk_meta "0x51" 0 [OVal VI64; OVal VI64] [OVal VI32]);
  ("i64.ne", mk_meta "0x52" 0 [OVal VI64; OVal VI64] [OVal VI32]);
  ("i64.lt_s", mk_meta "0x53" 0 [OVal VI64; OVal VI64] [OVal VI32]);
  ("i64.lt_u", mk_meta "0x54" 0 [OVal VI64; OVal VI64] [OVal VI32]);
  ("i64.gt_s", mk_meta "0x55" 0 [OVal VI64; OVal VI64] [OVal VI32]);
  ("i64.gt_u", mk_meta "0x56" 0 [OVal VI64; OVal VI64] [OVal VI32]);
  ("i64.le_s", mk_meta "0x57" 0 [OVal VI64; OVal VI64] [OVal VI32]);
  ("i64.le_u", mk_meta "0x58" 0 [OVal VI64; OVal VI64] [OVal VI32]);
  ("i64.ge_s", mk_meta "0x59" 0 [OVal VI64; OVal VI64] [OVal VI32]);
  ("i64.ge_u", mk_meta "0x5A" 0 [OVal VI64; OVal VI64] [OVal VI32]);
  ("f32.eq", mk_meta "0x5B" 0 [OVal VF32; OVal VF32] [OVal VI32]);
  ("f32.ne", mk_meta "0x5C" 0 [OVal VF32; OVal VF32] [OVal VI32]);
  ("f32.lt", mk_meta "0x5D" 0 [OVal VF32; OVal VF32] [OVal VI32]);
  ("f32.gt", mk_meta "0x5E" 0 [OVal VF32; OVal VF32] [OVal VI32]);
  ("f32.le", mk_meta "0x5F" 0 [OVal VF32; OVal VF32] [OVal VI32]);
  ("f32.ge", mk_meta "0x60" 0 [OVal VF32; OVal VF32] [OVal VI32]);
  ("f64.eq", mk_meta "0x61" 0 [OVal VF64; OVal VF64] [OVal VI32]);
  ("f64.ne", mk_meta "0x62" 0 [OVal VF64; OVal VF64] [OVal VI32]);
  ("f64.lt", mk_meta "0x63" 0 [OVal VF64; OVal VF64] [OVal VI32]);
  ("f64.gt", mk_meta "0x64" 0 [OVal VF64; OVal VF64] [OVal VI32]);
  ("f64.le", mk_meta "0x65" 0 [OVal VF64; OVal VF64] [OVal VI32]);
  ("f64.ge", mk_meta "0x66" 0 [OVal VF64; OVal VF64] [OVal VI32]);
  ("i32.clz", mk_meta "0x67" 0 [OVal VI32] [OVal VI32]);
  ("i32.ctz", mk_meta "0x68" 0 [OVal VI32] [OVal VI32]);
  ("i32.popcnt", mk_meta "0x69" 0 [OVal VI32] [OVal VI32]);
  ("i32.add", mk_meta "0x6A" 0 [OVal VI32; OVal VI32] [OVal VI32]);
  ("i32.sub", mk_meta "0x6B" 0 [OVal VI32; OVal VI32] [OVal VI32]);
  ("i32.mul", mk_meta "0x6C" 0 [OVal VI32; OVal VI32] [OVal VI32]);
  ("i32.div_s", mk_meta "0x6D" 0 [OVal VI32; OVal VI32] [OVal VI32]);
  ("i32.div_u", mk_meta "0x6E" 0 [OVal VI32; OVal VI32] [OVal VI32]);
  ("i32.rem_s", mk_meta "0x6F" 0 [OVal VI32; OVal VI32] [OVal VI32]);
  ("i32.rem_u", mk_meta "0x70" 0 [OVal VI32; OVal VI32] [OVal VI32]);
  ("i32.and", mk_meta "0x71" 0 [OVal VI32; OVal VI32] [OVal VI32]);
  ("i32.or", mk_meta "0x72" 0 [OVal VI32; OVal VI32] [OVal VI32]);
  ("i32.xor", mk_meta "0x73" 0 [OVal VI32; OVal VI32] [OVal VI32]);
  ("i32.shl", mk_meta "0x74" 0 [OVal VI32; OVal VI32] [OVal VI32]);
  ("i32.shr_s", mk_meta "0x75" 0 [OVal VI32; OVal VI32] [OVal VI32]);
  ("i32.shr_u", mk_meta "0x76" 0 [OVal VI32; OVal VI32] [OVal VI32]);
  ("i32.rotl", mk_meta "0x77" 0 [OVal VI32; OVal VI32] [OVal VI32]);
  ("i32.rotr", mk_meta "0x78" 0 [OVal VI32; OVal VI32] [OVal VI32]);
  ("i64.clz", mk_meta "0x79" 0 [OVal VI64] [OVal VI64]);
  ("i64.ctz", mk_meta "0x7A" 0 [OVal VI64] [OVal VI64]);
  ("i64.popcnt", mk_meta "0x7B" 0 [OVal VI64] [OVal VI64]);
  ("i64.add", mk_meta "0x7C" 0 [OVal VI64; OVal VI64] [OVal VI64]);
  ("i64.sub", mk_meta "0x7D" 0 [OVal VI64; OVal VI64] [OVal VI64]);
  ("i64.mul", mk_meta "0x7E" 0 [OVal VI64; OVal VI64] [OVal VI64]);
  ("i64.div_s", mk_meta "0x7F" 0 [OVal VI64; OVal VI64] [OVal VI64]);
  ("i64.div_u", mk_meta "0x80" 0 [OVal VI64; OVal VI64] [OVal VI64]);
  ("i64.rem_s", mk_meta "0x81" 0 [OVal VI64; OVal VI64] [OVal VI64]);
  ("i64.rem_u", mk_meta "0x82" 0 [OVal VI64; OVal VI64] [OVal VI64]);
  ("i64.and", mk_meta "0x83" 0 [OVal VI64; OVal VI64] [OVal VI64]);
  ("i64.or", mk_meta "0x84" 0 [OVal VI64; OVal VI64] [OVal VI64]);
  ("i64.xor", mk_meta "0x85" 0 [OVal VI64; OVal VI64] [OVal VI64]);
  ("i64.shl", mk_meta "0x86" 0 [OVal VI64; OVal VI64] [OVal VI64]);
  ("i64.shr_s", mk_meta "0x87" 0 [OVal VI64; OVal VI64] [OVal VI64]);
  ("i64.shr_u", mk_meta "0x88" 0 [OVal VI64; OVal VI64] [OVal VI64]);
  ("i64.rotl", mk_meta "0x89" 0 [OVal VI64; OVal VI64] [OVal VI64]);
  ("i64.rotr", mk_meta "0x8A" 0 [OVal VI64; OVal VI64] [OVal VI64]);
  ("f32.abs", mk_meta "0x8B" 0 [OVal VF32] [OVal VF32]);
  ("f32.neg", mk_meta "0x8C" 0 [OVal VF32] [OVal VF32]);
  ("f32.ceil", mk_meta "0x8D" 0 [OVal VF32] [OVal VF32]);
  ("f32.floor", mk_meta "0x8E" 0 [OVal VF32] [OVal VF32]);
  ("f32.trunc", mk_meta "0x8F" 0 [OVal VF32] [OVal VF32]);
  ("f32.nearest", mk_meta "0x90" 0 [OVal VF32] [OVal VF32]);
  ("f32.sqrt", mk_meta "0x91" 0 [OVal VF32] [OVal VF32]);
  ("f32.add", mk_meta "0x92" 0 [OVal VF32; OVal VF32] [OVal VF32]);
  ("f32.sub", mk_meta "0x93" 0 [OVal VF32; OVal VF32] [OVal VF32]);
  ("f32.mul", mk_meta "0x94" 0 [OVal VF32; OVal VF32] [OVal VF32]);
  ("f32.div", mk_meta "0x95" 0 [OVal VF32; OVal VF32] [OVal VF32]);
  ("f32.min", mk_meta "0x96" 0 [OVal VF32; OVal VF32] [OVal VF32]);
  ("f32.max", mk_meta "0x97" 0 [OVal VF32; OVal VF32] [OVal VF32]);
  ("f32.copysign", mk_meta "0x98" 0 [OVal VF32; OVal VF32] [OVal VF32]);
  ("f64.abs", mk_meta "0x99" 0 [OVal VF64] [OVal VF64]);
  ("f64.neg", mk_meta "0x9A" 0 [OVal VF64] [OVal VF64]);
  ("f64.ceil", mk_meta "0x9B" 0 [OVal VF64] [OVal VF64]);
  ("f64.floor", mk_meta "0x9C" 0 [OVal VF64] [OVal VF64]);
  ("f64.trunc", mk_meta "0x9D" 0 [OVal VF64] [OVal VF64]);
  ("f64.nearest", mk_meta "0x9E" 0 [OVal VF64] [OVal VF64]);
  ("f64.sqrt", mk_meta "0x9F" 0 [OVal VF64] [OVal VF64]);
  ("f64.add", mk_meta "0xA0" 0 [OVal VF64; OVal VF64] [OVal VF64]);
  ("f64.sub", mk_meta "0xA1" 0 [OVal VF64; OVal VF64] [OVal VF64]);
  ("f64.mul", mk_meta "0xA2" 0 [OVal VF64; OVal VF64] [OVal VF64]);
  ("f64.div", mk_meta "0xA3" 0 [OVal VF64; OVal VF64] [OVal VF64]);
  ("f64.min", mk_meta "0xA4" 0 [OVal VF64; OVal VF64] [OVal VF64]);
  ("f64.max", mk_meta "0xA5" 0 [OVal VF64; OVal VF64] [OVal VF64]);
  ("f64.copysign", mk_meta "0xA6" 0 [OVal VF64; OVal VF64] [OVal VF64]);
  ("i32.wrap_i64", mk_meta "0xA7" 0 [OVal VI64] [OVal VI32]);
  ("i32.trunc_f32_s", mk_meta "0xA8" 0 [OVal VF32] [OVal VI32]);
  ("i32.trunc_f32_u", mk_meta "0xA9" 0 [OVal VF32] [OVal VI32]);
  ("i32.trunc_f64_s", mk_meta "0xAA" 0 [OVal VF64] [OVal VI32]);
  ("i32.trunc_f64_u", mk_meta "0xAB" 0 [OVal VF64] [OVal VI32]);
  ("i64.extend_i32_s", mk_meta "0xAC" 0 [OVal VI32] [OVal VI64]);
  ("i64.extend_i32_u", mk_meta "0xAD" 0 [OVal VI32] [OVal VI64]);
  ("i64.trunc_f32_s", mk_meta "0xAE" 0 [OVal VF32] [OVal VI64]);
  ("i64.trunc_f32_u", mk_meta "0xAF" 0 [OVal VF32] [OVal VI64]);
  ("i64.trunc_f64_s", mk_meta "0xB0" 0 [OVal VF64] [OVal VI64]);
  ("i64.trunc_f64_u", mk_meta "0xB1" 0 [OVal VF64] [OVal VI64]);
  ("f32.convert_i32_s", mk_meta "0xB2" 0 [OVal VI32] [OVal VF32]);
  ("f32.convert_i32_u", mk_meta "0xB3" 0 [OVal VI32] [OVal VF32]);
  ("f32.convert_i64_s", mk_meta "0xB4" 0 [OVal VI64] [OVal VF32]);
  ("f32.convert_i64_u", mk_meta "0xB5" 0 [OVal VI64] [OVal VF32]);
  ("f32.demote_f64", mk_meta "0xB6" 0 [OVal VF64] [OVal VF32]);
  ("f64.convert_i32_s", mk_meta "0xB7" 0 [OVal VI32] [OVal VF64]);
  ("f64.convert_i32_u", mk_meta "0xB8" 0 [OVal VI32] [OVal VF64]);
  ("f64.convert_i64_s", mk_meta "0xB9" 0 [OVal VI64] [OVal VF64]);
  ("f64.convert_i64_u", mk_meta "0xBA" 0 [OVal VI64] [OVal VF64]);
  ("f64.promote_f32", mk_meta "0xBB" 0 [OVal VF32] [OVal VF64]);
  ("i32.reinterpret_f32", mk_meta "0xBC" 0 [OVal VF32] [OVal VI32]);
  ("i64.reinterpret_f64", mk_meta "0xBD" 0 [OVal VF64] [OVal VI64]);
  ("f32.reinterpret_i32", mk_meta "0xBE" 0 [OVal VI32] [OVal VF32]);
  ("f64.reinterpret_i64", mk_meta "0xBF" 0 [OVal VI64] [OVal VF64]);
  ("i32.extend8_s", mk_meta "0xC0" 0 [OVal VI32] [OVal VI32]);
  ("i32.extend16_s", mk_meta "0xC1" 0 [OVal VI32] [OVal VI32]);
  ("i64.extend8_s", mk_meta "0xC2" 0 [OVal VI64] [OVal VI64]);
  ("i64.extend16_s", mk_meta "0xC3" 0 [OVal VI64] [OVal VI64]);
  ("i64.extend32_s", mk_meta "0xC4" 0 [OVal VI64] [OVal VI64]);
  ("ref.null", mk_meta "0xD0" 1 [] [OGeneric]);
  ("ref.is_null", mk_meta "0xD1" 0 [OGeneric] [OVal VI32]);
  ("ref.func", mk_meta "0xD2" 1 [] [OVal VFuncRef]);
  ("i32.trunc_sat_f32_s", mk_meta "0xFC 0x00" 0 [OVal VF32] [OVal VI32]);
  ("i32.trunc_sat_f32_u", mk_meta "0xFC 0x01" 0 [OVal VF32] [OVal VI32]);
  ("i32.trunc_sat_f64_s", mk_meta "0xFC 0x02" 0 [OVal VF64] [OVal VI32]);
  ("i32.trunc_sat_f64_u", mk_meta "0xFC 0x03" 0 [OVal VF64] [OVal VI32]);
  ("i64.trunc_sat_f32_s", mk_meta "0xFC 0x04" 0 [OVal VF32] [OVal VI64]);
  ("i64.trunc_sat_f32_u", mk_meta "0xFC 0x05" 0 [OVal VF32] [OVal VI64]);
  ("i64.trunc_sat_f64_s", mk_meta "0xFC 0x06" 0 [OVal VF64] [OVal VI64]);
  ("i64.trunc_sat_f64_u", mk_meta "0xFC 0x07" 0 [OVal VF64] [OVal VI64]);
  ("memory.init", mk_meta "0xFC 0x08" 1 [OVal VI32; OVal VI32; OVal VI32] []);
  ("data.drop", mk_meta "0xFC 0x09" 1 [] []);
  ("memory.copy", mk_meta "0xFC 0x0A" 0 [OVal VI32; OVal VI32; OVal VI32] []);
  ("memory.fill", mk_meta "0xFC 0x0B" 0 [OVal VI32; OVal VI32; OVal VI32] []);
  ("table.init", mk_meta "0xFC 0x0C" 2 [OVal VI32; OVal VI32; OVal VI32] []);
  ("elem.drop", mk_meta "0xFC 0x0D" 1 [] []);
  ("table.copy", mk_meta "0xFC 0x0E" 2 [OVal VI32; OVal VI32; OVal VI32] []);
  ("table.grow", mk_meta "0xFC 0x0F" 1 [OGeneric; OVal VI32] [OVal VI32]);
  ("table.size", mk_meta "0xFC 0x10" 1 [] [OVal VI32]);
  ("table.fill", mk_meta "0xFC 0x11" 1 [OVal VI32; OGeneric; OVal VI32] []);
  ("v128.load", mk_meta "0xFD 0x00" 1 [OVal VI32] [OVal VV128]);
  ("v128.load8x8_s", mk_meta "0xFD 0x01" 1 [OVal VI32] [OVal VV128]);
  ("v128.load8x8_u", mk_meta "0xFD 0x02" 1 [OVal VI32] [OVal VV128]);
  ("v128.load16x4_s", mk_meta "0xFD 0x03" 1 [OVal VI32] [OVal VV128]);
  ("v128.load16x4_u", mk_meta "0xFD 0x04" 1 [OVal VI32] [OVal VV128]);
  ("v128.load32x2_s", mk_meta "0xFD 0x05" 1 [OVal VI32] [OVal VV128]);
  ("v128.load32x2_u", mk_meta "0xFD 0x06" 1 [OVal VI32] [OVal VV128]);
  ("v128.load8_splat", mk_meta "0xFD 0x07" 1 [OVal VI32] [OVal VV128]);
  ("v128.load16_splat", mk_meta "0xFD 0x08" 1 [OVal VI32] [OVal VV128]);
  ("v128.load32_splat", mk_meta "0xFD 0x09" 1 [OVal VI32] [OVal VV128]);
  ("v128.load64_splat", mk_meta "0xFD 0x0A" 1 [OVal VI32] [OVal VV128]);
  ("v128.store", mk_meta "0xFD 0x0B" 1 [OVal VI32; OVal VV128] []);
  ("v128.const", mk_meta "0xFD 0x0C" 1 [] [OVal VV128]);
  ("i8x16.shuffle", mk_meta "0xFD 0x0D" 1 [OVal VV128; OVal VV128] [OVal VV128]);
  ("i8x16.swizzle", mk_meta "0xFD 0x0E" 0 [OVal VV128; OVal VV128] [OVal VV128]);
  ("i8x16.splat", mk_meta "0xFD 0x0F" 0 [OVal VI32] [OVal VV128]);
  ("i16x8.splat", mk_meta "0xFD 0x10" 0 [OVal VI32] [OVal VV128]);
  ("i32x4.splat", mk_meta "0xFD 0x11" 0 [OVal VI32] [OVal VV128]);
  ("i64x2.splat", mk_meta "0xFD 0x12" 0 [OVal VI64] [OVal VV128]);
  ("f32x4.splat", mk_meta "0xFD 0x13" 0 [OVal VF32] [OVal VV128]);
  ("f64x2.splat", mk_meta "0xFD 0x14" 0 [OVal VF64] [OVal VV128]);
  ("i8x16.extract_lane_s", mk_meta "0xFD 0x15" 1 [OVal VV128] [OVal VI32]);
  ("i8x16.extract_lane_u", mk_meta "0xFD 0x16" 1 [OVal VV128] [OVal VI32]);
  ("i8x16.replace_lane", mk_meta "0xFD 0x17" 1 [OVal VV128; OVal VI32] [OVal VV128]);
  ("i16x8.extract_lane_s", mk_meta "0xFD 0x18" 1 [OVal VV128] [OVal VI32]);
  ("i16x8.extract_lane_u", mk_meta "0xFD 0x19" 1 [OVal VV128] [OVal VI32]);
  ("i16x8.replace_lane", mk_meta "0xFD 0x1A" 1 [OVal VV128; OVal VI32] [OVal VV128]);
  ("i32x4.extract_lane", mk_meta "0xFD 0x1B" 1 [OVal VV128] [OVal VI32]);
  ("i32x4.replace_lane", mk_meta "0xFD 0x1C" 1 [OVal VV128; OVal VI32] [OVal VV128]);
  ("i64x2.extract_lane", mk_meta "0xFD 0x1D" 1 [OVal VV128] [OVal VI64]);
  ("i64x2.replace_lane", mk_meta "0xFD 0x1E" 1 [OVal VV128; OVal VI64] [OVal VV128]);
  ("f32x4.extract_lane", mk_meta "0xFD 0x1F" 1 [OVal VV128] [OVal VF32]);
  ("f32x4.replace_lane", mk_meta "0xFD 0x20" 1 [OVal VV128; OVal VF32] [OVal VV128]);
  ("f64x2.extract_lane", mk_meta "0xFD 0x21" 1 [OVal VV128] [OVal VF64]);
  ("f64x2.replace_lane", mk_meta "0xFD 0x22" 1 [OVal VV128; OVal VF64] [OVal VV128]);
  ("i8x16.eq", mk_meta "0xFD 0x23" 0 [OVal VV128; OVal VV128] [OVal VV128]);
  ("i8x16.ne", mk_meta "0xFD 0x24" 0 [OVal VV128; OVal VV128] [OVal VV128]);
  ("i8x16.lt_s", mk_meta "0xFD 0x25" 0 [OVal VV128; OVal VV128] [OVal VV128]);
  ("i8x16.lt_u", mk_meta "0xFD 0x26" 0 [OVal VV128; OVal VV128] [OVal VV128]);
  ("i8x16.gt_s", mk_meta "0xFD 0x27" 0 [OVal VV128; OVal VV128] [OVal VV128]);
  ("i8x16.gt_u", mk_meta "0xFD 0x28" 0 [OVal VV128; OVal VV128] [OVal VV128]);
  ("i8x16.le_s", mk_meta "0xFD 0x29" 0 [OVal VV128; OVal VV128] [OVal VV128]);
  ("i8x16.le_u", mk_meta "0xFD 0x2A" 0 [OVal VV128; OVal VV128] [OVal VV128]);
  ("i8x16.ge_s", mk_meta "0xFD 0x2B" 0 [OVal VV128; OVal VV128] [OVal VV128]);
  ("i8x16.ge_u", mk_meta "0xFD 0x2C" 0 [OVal VV128; OVal VV128] [OVal VV128]);
  ("i16x8.eq", mk_meta "0xFD 0x2D" 0 [OVal VV128; OVal VV128] [OVal VV128]);
  ("i16x8.ne", mk_meta "0xFD 0x2E" 0 [OVal VV128; OVal VV128] [OVal VV128]);
  ("i16x8.lt_s", mk_meta "0xFD 0x2F" 0 [OVal VV128; OVal VV128] [OVal VV128]);
  ("i16x8.lt_u", mk_meta "0xFD 0x30" 0 [OVal VV128; OVal VV128] [OVal VV128]);
  ("i16x8.gt_s", mk_meta "0xFD 0x31" 0 [OVal VV128; OVal VV128] [OVal VV128]);
  ("i16x8.gt_u", mk_meta "0xFD 0x32" 0 [OVal VV128; OVal VV128] [OVal VV128]);
  ("i16x8.le_s", mk_meta "0xFD 0x33" 0 [OVal VV128; OVal VV128] [OVal VV128]);
  ("i16x8.le_u", mk_meta "0xFD 0x34" 0 [OVal VV128; OVal VV128] [OVal VV128]);
  ("i16x8.ge_s", mk_meta "0xFD 0x35" 0 [OVal VV128; OVal VV128] [OVal VV128]);
  ("i16x8.ge_u", mk_meta "0xFD 0x36" 0 [OVal VV128; OVal VV128] [OVal VV128]);
  ("i32x4.eq", mk_meta "0xFD 0x37" 0 [OVal VV128; OVal VV128] [OVal VV128]);
  ("i32x4.ne", mk_meta "0xFD 0x38" 0 [OVal VV128; OVal VV128] [OVal VV128]);
  ("i32x4.lt_s", mk_meta "0xFD 0x39" 0 [OVal VV128; OVal VV128] [OVal VV128]);
  ("i32x4.lt_u", mk_meta "0xFD 0x3A" 0 [OVal VV128; OVal VV128] [OVal VV128]);
  ("i32x4.gt_s", mk_meta "0xFD 0x3B" 0 [OVal VV128; OVal VV128] [OVal VV128]);
  ("i32x4.gt_u", mk_meta "0xFD 0x3C" 0 [OVal VV128; OVal VV128] [OVal VV128]);
  ("i32x4.le_s", mk_meta "0xFD 0x3D" 0 [OVal VV128; OVal VV128] [OVal VV128]);
  ("i32x4.le_u", mk_meta "0xFD 0x3E" 0 [OVal VV128; OVal VV128] [OVal VV128]);
  ("i32x4.ge_s", mk_meta "0xFD 0x3F" 0 [OVal VV128; OVal VV128] [OVal VV128]);
  ("i32x4.ge_u", mk_meta "0xFD 0x40" 0 [OVal VV128; OVal VV128] [OVal VV128]);
  ("f32x4.eq", mk_meta "0xFD 0x41" 0 [OVal VV128; OVal VV128] [OVal VV128]);
  ("f32x4.ne", mk_meta "0xFD 0x42" 0 [OVal VV128; OVal VV128] [OVal VV128]);
  ("f32x4.lt", mk_meta "0xFD 0x43" 0 [OVal VV128; OVal VV128] [OVal VV128]);
  ("f32x4.gt", mk_meta "0xFD 0x44" 0 [OVal VV128; OVal VV128] [OVal VV128]);
  ("f32x4.le", mk_meta "0xFD 0x45" 0 [OVal VV128; OVal VV128] [OVal VV128]);
  ("f32x4.ge", mk_meta "0xFD 0x46" 0 [OVal VV128; OVal VV128] [OVal VV128]);
  ("f64x2.eq", mk_meta "0xFD 0x47" 0 [OVal VV128; OVal VV128] [OVal VV128]);
  ("f64x2.ne", mk_meta "0xFD 0x48" 0 [OVal VV128; OVal VV128] [OVal VV128]);
  ("f64x2.lt", mk_meta "0xFD 0x49" 0 [OVal VV128; OVal VV128] [OVal VV128]);
  ("f64x2.gt", mk_meta "0xFD 0x4A" 0 [OVal VV128; OVal VV128] [OVal VV128]);
  ("f64x2.le", mk_meta "0xFD 0x4B" 0 [OVal VV128; OVal VV128] [OVal VV128]);
  ("f64x2.ge", mk_meta "0xFD 0x4C" 0 [OVal VV128; OVal VV128] [OVal VV128]);
  ("v128.not", mk_meta "0xFD 0x4D" 0 [OVal VV128] [OVal VV128]);
  ("v128.and", mk_meta "0xFD 0x4E" 0 [OVal VV128; OVal VV128] [OVal VV128]);
  ("v128.andnot", mk_meta "0xFD 0x4F" 0 [OVal VV128; OVal VV128] [OVal VV128]);
  ("v128.or", mk_meta "0xFD 0x50" 0 [OVal VV128; OVal VV128] [OVal VV128]);
  ("v128.xor", mk_meta "0xFD 0x51" 0 [OVal VV128; OVal VV128] [OVal VV128]);
  ("v128.bitselect", mk_meta "0xFD 0x52" 0 [OVal VV128; OVal VV128; OVal VV128] [OVal VV128]);
  ("v128.any_true", mk_meta "0xFD 0x53" 0 [OVal VV128] [OVal VI32]);
  ("v128.load8_lane", mk_meta "0xFD 0x54" 2 [OVal VI32; OVal VV128] [OVal VV128]);
  ("v128.load16_lane", mk_meta "0xFD 0x55" 2 [OVal VI32; OVal VV128] [OVal VV128]);
  ("v128.load32_lane", mk_meta "0xFD 0x56" 2 [OVal VI32; OVal VV128] [OVal VV128]);
  ("v128.load64_lane", mk_meta "0xFD 0x57" 2 [OVal VI32; OVal VV128] [OVal VV128]);
  ("v128.store8_lane", mk_meta "0xFD 0x58" 2 [OVal VI32; OVal VV128] []);
  ("v128.store16_lane", mk_meta "0xFD 0x59" 2 [OVal VI32; OVal VV128] []);
  ("v128.store32_lane", mk_meta "0xFD 0x5A" 2 [OVal VI32; OVal VV128] []);
  ("v128.store64_lane", mk_meta "0xFD 0x5B" 2 [OVal VI32; OVal VV128] []);
  ("v128.load32_zero", mk_meta "0xFD 0x5C" 1 [OVal VI32] [OVal VV128]);
  ("v128.load64_zero", mk_meta "0xFD 0x5D" 1 [OVal VI32] [OVal VV128]);
  ("f32x4.demote_f64x2_zero", mk_meta "0xFD 0x5E" 0 [OVal VV128] [OVal VV128]);
  ("f64x2.promote_low_f32x4", mk_meta "0xFD 0x5F" 0 [OVal VV128] [OVal VV128]);
  ("i8x16.abs", mk_meta "0xFD 0x60" 0 [OVal VV128] [OVal VV128]);
  ("i8x16.neg", mk_meta "0xFD 0x61" 0 [OVal VV128] [OVal VV128]);
  ("i8x16.popcnt", mk_meta "0xFD 0x62" 0 [OVal VV128] [OVal VV128]);
  ("i8x16.all_true", mk_meta "0xFD 0x63" 0 [OVal VV128] [OVal VI32]);
  ("i8x16.bitmask", mk_meta "0xFD 0x64" 0 [OVal VV128] [OVal VI32]);
  ("i8x16.narrow_i16x8_s", mk_meta "0xFD 0x65" 0 [OVal VV128; OVal VV128] [OVal VV128]);
  ("i8x16.narrow_i16x8_u", mk_meta "0xFD 0x66" 0 [OVal VV128; OVal VV128] [OVal VV128]);
  ("f32x4.ceil", mk_meta "0xFD 0x67" 0 [OVal VV128] [OVal VV128]);
  ("f32x4.floor", mk_meta "0xFD 0x68" 0 [OVal VV128] [OVal VV128]);
  ("f32x4.trunc", mk_meta "0xFD 0x69" 0 [OVal VV128] [OVal VV128]);
  ("f32x4.nearest", mk_meta "0xFD 0x6A" 0 [OVal VV128] [OVal VV128]);
  ("i8x16.shl", mk_meta "0xFD 0x6B" 0 [OVal VV128; OVal VI32] [OVal VV128]);
  ("i8x16.shr_s", mk_meta "0xFD 0x6C" 0 [OVal VV128; OVal VI32] [OVal VV128]);
  ("i8x16.shr_u", mk_meta "0xFD 0x6D" 0 [OVal VV128; OVal VI32] [OVal VV128]);
  ("i8x16.add", mk_meta "0xFD 0x6E" 0 [OVal VV128; OVal VV128] [OVal VV128]);
  ("i8x16.add_sat_s", mk_meta "0xFD 0x6F" 0 [OVal VV128; OVal VV128] [OVal VV128]);
  ("i8x16.add_sat_u", mk_meta "0xFD 0x70" 0 [OVal VV128; OVal VV128] [OVal VV128]);
  ("i8x16.sub", mk_meta "0xFD 0x71" 0 [OVal VV128; OVal VV128] [OVal VV128]);
  ("i8x16.sub_sat_s", mk_meta "0xFD 0x72" 0 [OVal VV128; OVal VV128] [OVal VV128]);
  ("i8x16.sub_sat_u", mk_meta "0xFD 0x73" 0 [OVal VV128; OVal VV128] [OVal VV128]);
  ("f64x2.ceil", mk_meta "0xFD 0x74" 0 [OVal VV128] [OVal VV128]);
  ("f64x2.floor", mk_meta "0xFD 0x75" 0 [OVal VV128] [OVal VV128]);
  ("i8x16.min_s", mk_meta "0xFD 0x76" 0 [OVal VV128; OVal VV128] [OVal VV128]);
  ("i8x16.min_u", mk_meta "0xFD 0x77" 0 [OVal VV128; OVal VV128] [OVal VV128]);
  ("i8x16.max_s", mk_meta "0xFD 0x78" 0 [OVal VV128; OVal VV128] [OVal VV128]);
  ("i8x16.max_u", mk_meta "0xFD 0x79" 0 [OVal VV128; OVal VV128] [OVal VV128]);
  ("f64x2.trunc", mk_meta "0xFD 0x7A" 0 [OVal VV128] [OVal VV128]);
  ("i8x16.avgr_u", mk_meta "0xFD 0x7B" 0 [OVal VV128; OVal VV128] [OVal VV128]);
  ("i16x8.extadd_pairwise_i8x16_s", mk_meta "0xFD 0x7C" 0 [OVal VV128] [OVal VV128]);
  ("i16x8.extadd_pairwise_i8x16_u", mk_meta "0xFD 0x7D" 0 [OVal VV128] [OVal VV128]);
  ("i32x4.extadd_pairwise_i16x8_s", mk_meta "0xFD 0x7E" 0 [OVal VV128] [OVal VV128]);
  ("i32x4.extadd_pairwise_i16x8_u", mk_meta "0xFD 0x7F" 0 [OVal VV128] [OVal VV128]);
  ("i16x8.abs", mk_meta "0xFD 0x80 0x01" 0 [OVal VV128] [OVal VV128]);
  ("i16x8.neg", mk_meta "0xFD 0x81 0x01" 0 [OVal VV128] [OVal VV128]);
  ("i16x8.q15mulr_sat_s", mk_meta "0xFD 0x82 0x01" 0 [OVal VV128; OVal VV128] [OVal VV128]);
  ("i16x8.all_true", mk_meta "0xFD 0x83 0x01" 0 [OVal VV128] [OVal VI32]);
  ("i16x8.bitmask", mk_meta "0xFD 0x84 0x01" 0 [OVal VV128] [OVal VI32]);
  ("i16x8.narrow_i32x4_s", mk_meta "0xFD 0x85 0x01" 0 [OVal VV128; OVal VV128] [OVal VV128]);
  ("i16x8.narrow_i32x4_u", mk_meta "0xFD 0x86 0x01" 0 [OVal VV128; OVal VV128] [OVal VV128]);
  ("i16x8.extend_low_i8x16_s", mk_meta "0xFD 0x87 0x01" 0 [OVal VV128] [OVal VV128]);
  ("i16x8.extend_high_i8x16_s", mk_meta "0xFD 0x88 0x01" 0 [OVal VV128] [OVal VV128]);
  ("i16x8.extend_low_i8x16_u", mk_meta "0xFD 0x89 0x01" 0 [OVal VV128] [OVal VV128]);
  ("i16x8.extend_high_i8x16_u", mk_meta "0xFD 0x8A 0x01" 0 [OVal VV128] [OVal VV128]);
  ("i16x8.shl", mk_meta "0xFD 0x8B 0x01" 0 [OVal VV128; OVal VI32] [OVal VV128]);
  ("i16x8.shr_s", mk_meta "0xFD 0x8C 0x01" 0 [OVal VV128; OVal VI32] [OVal VV128]);
  ("i16x8.shr_u", mk_meta "0xFD 0x8D 0x01" 0 [OVal VV128; OVal VI32] [OVal VV128]);
  ("i16x8.add", mk_meta "0xFD 0x8E 0x01" 0 [OVal VV128; OVal VV128] [OVal VV128]);
  ("i16x8.add_sat_s", mk_meta "0xFD 0x8F 0x01" 0 [OVal VV128; OVal VV128] [OVal VV128]);
  ("i16x8.add_sat_u", mk_meta "0xFD 0x90 0x01" 0 [OVal VV128; OVal VV128] [OVal VV128]);
  ("i16x8.sub", mk_meta "0xFD 0x91 0x01" 0 [OVal VV128; OVal VV128] [OVal VV128]);
  ("i16x8.sub_sat_s", mk_meta "0xFD 0x92 0x01" 0 [OVal VV128; OVal VV128] [OVal VV128]);
  ("i16x8.sub_sat_u", mk_meta "0xFD 0x93 0x01" 0 [OVal VV128; OVal VV128] [OVal VV128]);
  ("f64x2.nearest", mk_meta "0xFD 0x94 0x01" 0 [OVal VV128] [OVal VV128]);
  ("i16x8.mul", mk_meta "0xFD 0x95 0x01" 0 [OVal VV128; OVal VV128] [OVal VV128]);
  ("i16x8.min_s", mk_meta "0xFD 0x96 0x01" 0 [OVal VV128; OVal VV128] [OVal VV128]);
  ("i16x8.min_u", mk_meta "0xFD 0x97 0x01" 0 [OVal VV128; OVal VV128] [OVal VV128]);
  ("i16x8.max_s", mk_meta "0xFD 0x98 0x01" 0 [OVal VV128; OVal VV128] [OVal VV128]);
  ("i16x8.max_u", mk_meta "0xFD 0x99 0x01" 0 [OVal VV128; OVal VV128] [OVal VV128]);
  ("i16x8.avgr_u", mk_meta "0xFD 0x9B 0x01" 0 [OVal VV128; OVal VV128] [OVal VV128]);
  ("i16x8.extmul_low_i8x16_s", mk_meta "0xFD 0x9C 0x01" 0 [OVal VV128; OVal VV128] [OVal VV128]);
  ("i16x8.extmul_high_i8x16_s", mk_meta "0xFD 0x9D 0x01" 0 [OVal VV128; OVal VV128] [OVal VV128]);
  ("i16x8.extmul_low_i8x16_u", mk_meta "0xFD 0x9E 0x01" 0 [OVal VV128; OVal VV128] [OVal VV128]);
  ("i16x8.extmul_high_i8x16_u", mk_meta "0xFD 0x9F 0x01" 0 [OVal VV128; OVal VV128] [OVal VV128]);
  ("i32x4.abs", mk_meta "0xFD 0xA0 0x01" 0 [OVal VV128] [OVal VV128]);
  ("i32x4.neg", mk_meta "0xFD 0xA1 0x01" 0 [OVal VV128] [OVal VV128]);
  ("i32x4.all_true", mk_meta "0xFD 0xA3 0x01" 0 [OVal VV128] [OVal VI32]);
  ("i32x4.bitmask", mk_meta "0xFD 0xA4 0x01" 0 [OVal VV128] [OVal VI32]);
  ("i32x4.extend_low_i16x8_s", mk_meta "0xFD 0xA7 0x01" 0 [OVal VV128] [OVal VV128]);
  ("i32x4.extend_high_i16x8_s", mk_meta "0xFD 0xA8 0x01" 0 [OVal VV128] [OVal VV128]);
  ("i32x4.extend_low_i16x8_u", mk_meta "0xFD 0xA9 0x01" 0 [OVal VV128] [OVal VV128]);
  ("i32x4.extend_high_i16x8_u", mk_meta "0xFD 0xAA 0x01" 0 [OVal VV128] [OVal VV128]);
  ("i32x4.shl", mk_meta "0xFD 0xAB 0x01" 0 [OVal VV128; OVal VI32] [OVal VV128]);
  ("i32x4.shr_s", mk_meta "0xFD 0xAC 0x01" 0 [OVal VV128; OVal VI32] [OVal VV128]);
  ("i32x4.shr_u", mk_meta "0xFD 0xAD 0x01" 0 [OVal VV128; OVal VI32] [OVal VV128]);
  ("i32x4.add", mk_meta "0xFD 0xAE 0x01" 0 [OVal VV128; OVal VV128] [OVal VV128]);
  ("i32x4.sub", mk_meta "0xFD 0xB1 0x01" 0 [OVal VV128; OVal VV128] [OVal VV128]);
  ("i32x4.mul", mk_meta "0xFD 0xB5 0x01" 0 [OVal VV128; OVal VV128] [OVal VV128]);
  ("i32x4.min_s", mk_meta "0xFD 0xB6 0x01" 0 [OVal VV128; OVal VV128] [OVal VV128]);
  ("i32x4.min_u", mk_meta "0xFD 0xB7 0x01" 0 [OVal VV128; OVal VV128] [OVal VV128]);
  ("i32x4.max_s", mk_meta "0xFD 0xB8 0x01" 0 [OVal VV128; OVal VV128] [OVal VV128]);
  ("i32x4.max_u", mk_meta "0xFD 0xB9 0x01" 0 [OVal VV128; OVal VV128] [OVal VV128]);
  ("i32x4.dot_i16x8_s", mk_meta "0xFD 0xBA 0x01" 0 [OVal VV128; OVal VV128] [OVal VV128]);
  ("i32x4.extmul_low_i16x8_s", mk_meta "0xFD 0xBC 0x01" 0 [OVal VV128; OVal VV128] [OVal VV128]);
  ("i32x4.extmul_high_i16x8_s", mk_meta "0xFD 0xBD 0x01" 0 [OVal VV128; OVal VV128] [OVal VV128]);
  ("i32x4.extmul_low_i16x8_u", mk_meta "0xFD 0xBE 0x01" 0 [OVal VV128; OVal VV128] [OVal VV128]);
  ("i32x4.extmul_high_i16x8_u", mk_meta "0xFD 0xBF 0x01" 0 [OVal VV128; OVal VV128] [OVal VV128]);
  ("i64x2.abs", mk_meta "0xFD 0xC0 0x01" 0 [OVal VV128] [OVal VV128]);
  ("i64x2.neg", mk_meta "0xFD 0xC1 0x01" 0 [OVal VV128] [OVal VV128]);
  ("i64x2.all_true", mk_meta "0xFD 0xC3 0x01" 0 [OVal VV128] [OVal VI32]);
  ("i64x2.bitmask", mk_meta "0xFD 0xC4 0x01" 0 [OVal VV128] [OVal VI32]);
  ("i64x2.extend_low_i32x4_s", mk_meta "0xFD 0xC7 0x01" 0 [OVal VV128] [OVal VV128]);
  ("i64x2.extend_high_i32x4_s", mk_meta "0xFD 0xC8 0x01" 0 [OVal VV128] [OVal VV128]);
  ("i64x2.extend_low_i32x4_u", mk_meta "0xFD 0xC9 0x01" 0 [OVal VV128] [OVal VV128]);
  ("i64x2.extend_high_i32x4_u", mk_meta "0xFD 0xCA 0x01" 0 [OVal VV128] [OVal VV128]);
  ("i64x2.shl", mk_meta "0xFD 0xCB 0x01" 0 [OVal VV128; OVal VI32] [OVal VV128]);
  ("i64x2.shr_s", mk_meta "0xFD 0xCC 0x01" 0 [OVal VV128; OVal VI32] [OVal VV128]);
  ("i64x2.shr_u", mk_meta "0xFD 0xCD 0x01" 0 [OVal VV128; OVal VI32] [OVal VV128]);
  ("i64x2.add", mk_meta "0xFD 0xCE 0x01" 0 [OVal VV128; OVal VV128] [OVal VV128]);
  ("i64x2.sub", mk_meta "0xFD 0xD1 0x01" 0 [OVal VV128; OVal VV128] [OVal VV128]);
  ("i64x2.mul", mk_meta "0xFD 0xD5 0x01" 0 [OVal VV128; OVal VV128] [OVal VV128]);
  ("i64x2.eq", mk_meta "0xFD 0xD6 0x01" 0 [OVal VV128; OVal VV128] [OVal VV128]);
  ("i64x2.ne", mk_meta "0xFD 0xD7 0x01" 0 [OVal VV128; OVal VV128] [OVal VV128]);
  ("i64x2.lt_s", mk_meta "0xFD 0xD8 0x01" 0 [OVal VV128; OVal VV128] [OVal VV128]);
  ("i64x2.gt_s", mk_meta "0xFD 0xD9 0x01" 0 [OVal VV128; OVal VV128] [OVal VV128]);
  ("i64x2.le_s", mk_meta "0xFD 0xDA 0x01" 0 [OVal VV128; OVal VV128] [OVal VV128]);
  ("i64x2.ge_s", mk_meta "0xFD 0xDB 0x01" 0 [OVal VV128; OVal VV128] [OVal VV128]);
  ("i64x2.extmul_low_i32x4_s", mk_meta "0xFD 0xDC 0x01" 0 [OVal VV128; OVal VV128] [OVal VV128]);
  ("i64x2.extmul_high_i32x4_s", mk_meta "0xFD 0xDD 0x01" 0 [OVal VV128; OVal VV128] [OVal VV128]);
  ("i64x2.extmul_low_i32x4_u", mk_meta "0xFD 0xDE 0x01" 0 [OVal VV128; OVal VV128] [OVal VV128]);
  ("i64x2.extmul_high_i32x4_u", mk_meta "0xFD 0xDF 0x01" 0 [OVal VV128; OVal VV128] [OVal VV128]);
  ("f32x4.abs", mk_meta "0xFD 0xE0 0x01" 0 [OVal VV128] [OVal VV128]);
  ("f32x4.neg", mk_meta "0xFD 0xE1 0x01" 0 [OVal VV128] [OVal VV128]);
  ("f32x4.sqrt", mk_meta "0xFD 0xE3 0x01" 0 [OVal VV128] [OVal VV128]);
  ("f32x4.add", mk_meta "0xFD 0xE4 0x01" 0 [OVal VV128; OVal VV128] [OVal VV128]);
  ("f32x4.sub", mk_meta "0xFD 0xE5 0x01" 0 [OVal VV128; OVal VV128] [OVal VV128]);
  ("f32x4.mul", mk_meta "0xFD 0xE6 0x01" 0 [OVal VV128; OVal VV128] [OVal VV128]);
  ("f32x4.div", mk_meta "0xFD 0xE7 0x01" 0 [OVal VV128; OVal VV128] [OVal VV128]);
  ("f32x4.min", mk_meta "0xFD 0xE8 0x01" 0 [OVal VV128; OVal VV128] [OVal VV128]);
  ("f32x4.max", mk_meta "0xFD 0xE9 0x01" 0 [OVal VV128; OVal VV128] [OVal VV128]);
  ("f32x4.pmin", mk_meta "0xFD 0xEA 0x01" 0 [OVal VV128; OVal VV128] [OVal VV128]);
  ("f32x4.pmax", mk_meta "0xFD 0xEB 0x01" 0 [OVal VV128; OVal VV128] [OVal VV128]);
  ("f64x2.abs", mk_meta "0xFD 0xEC 0x01" 0 [OVal VV128] [OVal VV128]);
  ("f64x2.neg", mk_meta "0xFD 0xED 0x01" 0 [OVal VV128] [OVal VV128]);
  ("f64x2.sqrt", mk_meta "0xFD 0xEF 0x01" 0 [OVal VV128] [OVal VV128]);
  ("f64x2.add", mk_meta "0xFD 0xF0 0x01" 0 [OVal VV128; OVal VV128] [OVal VV128]);
  ("f64x2.sub", mk_meta "0xFD 0xF1 0x01" 0 [OVal VV128; OVal VV128] [OVal VV128]);
  ("f64x2.mul", mk_meta "0xFD 0xF2 0x01" 0 [OVal VV128; OVal VV128] [OVal VV128]);
  ("f64x2.div", mk_meta "0xFD 0xF3 0x01" 0 [OVal VV128; OVal VV128] [OVal VV128]);
  ("f64x2.min", mk_meta "0xFD 0xF4 0x01" 0 [OVal VV128; OVal VV128] [OVal VV128]);
  ("f64x2.max", mk_meta "0xFD 0xF5 0x01" 0 [OVal VV128; OVal VV128] [OVal VV128]);
  ("f64x2.pmin", mk_meta "0xFD 0xF6 0x01" 0 [OVal VV128; OVal VV128] [OVal VV128]);
  ("f64x2.pmax", mk_meta "0xFD 0xF7 0x01" 0 [OVal VV128; OVal VV128] [OVal VV128]);
  ("i32x4.trunc_sat_f32x4_s", mk_meta "0xFD 0xF8 0x01" 0 [OVal VV128] [OVal VV128]);
  ("i32x4.trunc_sat_f32x4_u", mk_meta "0xFD 0xF9 0x01" 0 [OVal VV128] [OVal VV128]);
  ("f32x4.convert_i32x4_s", mk_meta "0xFD 0xFA 0x01" 0 [OVal VV128] [OVal VV128]);
  ("f32x4.convert_i32x4_u", mk_meta "0xFD 0xFB 0x01" 0 [OVal VV128] [OVal VV128]);
  ("i32x4.trunc_sat_f64x2_s_zero", mk_meta "0xFD 0xFC 0x01" 0 [OVal VV128] [OVal VV128]);
  ("i32x4.trunc_sat_f64x2_u_zero", mk_meta "0xFD 0xFD 0x01" 0 [OVal VV128] [OVal VV128]);
  ("f64x2.convert_low_i32x4_s", mk_meta "0xFD 0xFE 0x01" 0 [OVal VV128] [OVal VV128]);
  ("f64x2.convert_low_i32x4_u", mk_meta "0xFD 0xFF 0x01" 0 [OVal VV128] [OVal VV128])
].

(** The types of the instructions, as the WebAssembly specification gives
    them: by families of operations over number types and vector shapes. *)

From Coq Require Import String List.
From Verif Require Import InstrMeta.
Import ListNotations.
Local Open Scope string_scope.
Local Open Scope list_scope.
Local Infix "^" := String.append.

Definition ty_name (t : valtype) : string :=
  match t with
  | VI32 => "i32" | VI64 => "i64" | VF32 => "f32" | VF64 => "f64"
  | VV128 => "v128" | VFuncRef => "funcref" | VExternRef => "externref"
  end.
(** A name with its types. *)
Definition sig : Type := string * list valtype * list valtype.
Definition op (pre : string) (ps rs : list valtype) (l : list string) : list sig :=
  map (fun o => (pre ^ "." ^ o, ps, rs)) l.
Definition signs (l : list string) : list string := flat_map (fun o => [o ^ "_s"; o ^ "_u"]) l.

(** Integers: [t] is i32 or i64. *)
Definition int_ops (t : valtype) : list sig :=
  op (ty_name t) [t] [t] ["clz"; "ctz"; "popcnt"; "extend8_s"; "extend16_s"]
  ++ op (ty_name t) [t; t] [t] (["add"; "sub"; "mul"; "and"; "or"; "xor"; "shl"; "rotl"; "rotr"] ++ signs ["div"; "rem"; "shr"])
  ++ op (ty_name t) [t] [VI32] ["eqz"]
  ++ op (ty_name t) [t; t] [VI32] (["eq"; "ne"] ++ signs ["lt"; "gt"; "le"; "ge"]).
(** Floats: [t] is f32 or f64. *)
Definition float_ops (t : valtype) : list sig :=
  op (ty_name t) [t] [t] ["abs"; "neg"; "ceil"; "floor"; "trunc"; "nearest"; "sqrt"]
  ++ op (ty_name t) [t; t] [t] ["add"; "sub"; "mul"; "div"; "min"; "max"; "copysign"]
  ++ op (ty_name t) [t; t] [VI32] ["eq"; "ne"; "lt"; "gt"; "le"; "ge"].
Definition conversions : list sig :=
  op "i64" [VI64] [VI64] ["extend32_s"]
  ++ op "i32" [VI64] [VI32] ["wrap_i64"]
  ++ op "i64" [VI32] [VI64] (signs ["extend_i32"])
  ++ flat_map (fun i => flat_map (fun f =>
       op (ty_name i) [f] [i] (signs ["trunc_" ^ ty_name f; "trunc_sat_" ^ ty_name f])
       ++ op (ty_name f) [i] [f] (signs ["convert_" ^ ty_name i])) [VF32; VF64]) [VI32; VI64]
  ++ op "f32" [VF64] [VF32] ["demote_f64"] ++ op "f64" [VF32] [VF64] ["promote_f32"]
  ++ flat_map (fun '(i, f) => op (ty_name i) [f] [i] ["reinterpret_" ^ ty_name f]
                              ++ op (ty_name f) [i] [f] ["reinterpret_" ^ ty_name i]) [(VI32, VF32); (VI64, VF64)].
Definition accesses : list sig :=
  flat_map (fun t => op (ty_name t) [] [t] ["const"] ++ op (ty_name t) [VI32] [t] ["load"]
                     ++ op (ty_name t) [VI32; t] [] ["store"]) [VI32; VI64; VF32; VF64; VV128]
  ++ flat_map (fun t => op (ty_name t) [VI32] [t] (signs ["load8"; "load16"])
                        ++ op (ty_name t) [VI32; t] [] ["store8"; "store16"]) [VI32; VI64]
  ++ op "i64" [VI32] [VI64] (signs ["load32"]) ++ op "i64" [VI32; VI64] [] ["store32"]
  ++ op "memory" [] [VI32] ["size"] ++ op "memory" [VI32] [VI32] ["grow"]
  ++ op "memory" [VI32; VI32; VI32] [] ["init"; "copy"; "fill"]
  ++ op "table" [VI32; VI32; VI32] [] ["init"; "copy"] ++ op "table" [] [VI32] ["size"]
  ++ op "data" [] [] ["drop"] ++ op "elem" [] [] ["drop"] ++ op "ref" [] [VFuncRef] ["func"].

(** Vectors: a shape is a name with the type of its lanes. *)
Definition shapes : list (string * valtype) :=
  [("i8x16", VI32); ("i16x8", VI32); ("i32x4", VI32); ("i64x2", VI64); ("f32x4", VF32); ("f64x2", VF64)].
Definition v1 (pre : string) (l : list string) : list sig := op pre [VV128] [VV128] l.
Definition v2 (pre : string) (l : list string) : list sig := op pre [VV128; VV128] [VV128] l.
Definition vectors : list sig :=
  flat_map (fun '(p, t) => op p [t] [VV128] ["splat"] ++ op p [VV128; t] [VV128] ["replace_lane"]) shapes
  ++ flat_map (fun '(p, t) => op p [VV128] [t] ["extract_lane"]) (skipn 2 shapes)
  ++ flat_map (fun '(p, t) => op p [VV128] [t] (signs ["extract_lane"])) (firstn 2 shapes)
  (* integers *)
  ++ flat_map (fun '(p, _) =>
       v1 p ["abs"; "neg"] ++ v2 p (["eq"; "ne"; "add"; "sub"] ++ map (fun c => c ^ "_s") ["lt"; "gt"; "le"; "ge"])
       ++ op p [VV128] [VI32] ["all_true"; "bitmask"]
       ++ op p [VV128; VI32] [VV128] ("shl" :: signs ["shr"])) (firstn 4 shapes)
  ++ flat_map (fun '(p, _) =>
       v2 p (map (fun c => c ^ "_u") ["lt"; "gt"; "le"; "ge"] ++ signs ["min"; "max"])) (firstn 3 shapes)
  ++ flat_map (fun '(p, _) => v2 p ("avgr_u" :: signs ["add_sat"; "sub_sat"])) (firstn 2 shapes)
  ++ flat_map (fun p => v2 p ["mul"]) ["i16x8"; "i32x4"; "i64x2"]
  ++ v1 "i8x16" ["popcnt"] ++ v2 "i8x16" ["shuffle"; "swizzle"] ++ v2 "i16x8" ["q15mulr_sat_s"] ++ v2 "i32x4" ["dot_i16x8_s"]
  (* between shapes *)
  ++ flat_map (fun '(p, q) =>
       v2 p (signs ["extmul_low_" ^ q; "extmul_high_" ^ q]) ++ v1 p (signs ["extend_low_" ^ q; "extend_high_" ^ q]))
       [("i16x8", "i8x16"); ("i32x4", "i16x8"); ("i64x2", "i32x4")]
  ++ flat_map (fun '(p, q) => v2 q (signs ["narrow_" ^ p]) ++ v1 p (signs ["extadd_pairwise_" ^ q]))
       [("i16x8", "i8x16"); ("i32x4", "i16x8")]
  ++ v1 "i32x4" (signs ["trunc_sat_f32x4"] ++ ["trunc_sat_f64x2_s_zero"; "trunc_sat_f64x2_u_zero"])
  ++ v1 "f32x4" (signs ["convert_i32x4"] ++ ["demote_f64x2_zero"])
  ++ v1 "f64x2" (signs ["convert_low_i32x4"] ++ ["promote_low_f32x4"])
  (* floats *)
  ++ flat_map (fun '(p, _) =>
       v1 p ["abs"; "neg"; "sqrt"; "ceil"; "floor"; "trunc"; "nearest"]
       ++ v2 p ["eq"; "ne"; "lt"; "gt"; "le"; "ge"; "add"; "sub"; "mul"; "div"; "min"; "max"; "pmin"; "pmax"]) (skipn 4 shapes)
  (* bits and memory *)
  ++ v1 "v128" ["not"] ++ v2 "v128" ["and"; "andnot"; "or"; "xor"]
  ++ op "v128" [VV128; VV128; VV128] [VV128] ["bitselect"] ++ op "v128" [VV128] [VI32] ["any_true"]
  ++ op "v128" [VI32] [VV128] (signs ["load8x8"; "load16x4"; "load32x2"]
       ++ ["load8_splat"; "load16_splat"; "load32_splat"; "load64_splat"; "load32_zero"; "load64_zero"])
  ++ op "v128" [VI32; VV128] [VV128] ["load8_lane"; "load16_lane"; "load32_lane"; "load64_lane"]
  ++ op "v128" [VI32; VV128] [] ["store8_lane"; "store16_lane"; "store32_lane"; "store64_lane"].

Definition signatures : list sig :=
  flat_map int_ops [VI32; VI64] ++ flat_map float_ops [VF32; VF64] ++ conversions ++ accesses ++ vectors.

(** Instructions whose types depend on their operands or on what they refer
    to; [None] stands for such a type. *)
Definition generic : list (string * list (option valtype) * list (option valtype)) :=
  [ ("drop", [None], []); ("select", [None; None; Some VI32], [None])
  ; ("local.get", [], [None]); ("local.set", [None], []); ("local.tee", [None], [None])
  ; ("global.get", [], [None]); ("global.set", [None], [])
  ; ("table.get", [Some VI32], [None]); ("table.set", [Some VI32; None], [])
  ; ("table.grow", [None; Some VI32], [Some VI32]); ("table.fill", [Some VI32; None; Some VI32], [])
  ; ("ref.null", [], [None]); ("ref.is_null", [None], [Some VI32]) ].

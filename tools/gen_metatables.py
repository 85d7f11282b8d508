"""Writes rocq/theories/MetaTables.v from the generated tables of /repo (auxiliary/{input,update,output}.hpp, meta_gen/)."""
import re, pathlib
INC = pathlib.Path("/repo/power_grid_model_c/power_grid_model/include/power_grid_model")
ENUMS = re.findall(r"enum class (\w+) : IntS", (INC / "common/enum.hpp").read_text())
def ftype(t):
    if t == "ID": return "FInt32"
    if t == "IntS" or t in ENUMS: return "FInt8"
    if t == "double": return "FDouble"
    if t == "RealValue<asymmetric_t>": return "FDouble3"
    if t == "RealValue<symmetric_t>": return "FDouble"
    if t == "RealValue<sym>": return "(FReal sym)"
    raise ValueError(t)
def fdefault(d):
    if d == "nan": return "DNan"
    if d == "na_IntID": return "DNaID"
    m = re.fullmatch(r"static_cast<(\w+)>\(na_IntS\)", d)
    if d == "na_IntS" or (m and m.group(1) in ENUMS): return "DNaIntS"
    raise ValueError(d)
out = ['''(** The attribute tables, written by tools/gen_metatables.py from the generated headers of the repository. *)
From Verif Require Import Common MetaData.
From Coq Require Import String.
Local Open Scope string_scope.
''']
structs, is_sym, conv = {}, {}, []
for f in ("input", "update", "output"):
    text = (INC / f"auxiliary/{f}.hpp").read_text()
    lines = text.splitlines()
    out.append(f"(** auxiliary/{f}.hpp {1}-{len(lines)}: the structs, each with its members in order. *)")
    cur = None
    for n, l in enumerate(lines, 1):
        m = re.match(r"struct (\w+) \{", l)
        if m:
            cur, mem = m.group(1), []
            is_sym[cur] = "symmetry_tag" in lines[n - 2]
            start = n
            continue
        m = re.match(r"    ([\w<>]+) (\w+)\{(.*?)\};  //", l)
        if m and cur:
            mem.append(f'mkField "{m.group(2)}" {ftype(m.group(1))} {fdefault(m.group(3))}')
        elif cur and re.match(r"    [\w<>]+ \w+[\{;=]", l) and "using" not in l:
            raise ValueError(l)
        m = re.match(r"    operator (\w+)(<sym>)?&\(\) \{ return reinterpret_cast<", l)
        if m: conv.append((cur, m.group(1)))
        if l.startswith("};") and cur:
            structs[cur] = True
            arg = " (sym : bool)" if is_sym[cur] else ""
            out.append(f"(** {f}.hpp {start}-{n} *)\nDefinition {cur}{arg} : list field :=\n  [" + ";\n   ".join(mem) + "].")
            cur = None
for f in ("input", "update", "output"):
    text = (INC / f"auxiliary/meta_gen/{f}.hpp").read_text()
    lines = text.splitlines()
    out.append(f"(** auxiliary/meta_gen/{f}.hpp {1}-{len(lines)}: for each attribute the member, the member in offsetof and the name. *)")
    cur = None
    for n, l in enumerate(lines, 1):
        m = re.match(r"struct get_attributes_list<(\w+)(<sym_type>)?> \{", l)
        if m:
            cur, mem, start, count = m.group(1), [], n, None
        m = re.search(r"std::array<MetaAttribute, (\d+)>", l)
        if m: count = int(m.group(1))
        if "get_meta_attribute<" in l:
            m = re.fullmatch(r'\s*meta_data_gen::get_meta_attribute<&(\w+)(?:<sym>)?::(\w+)>\(offsetof\((\w+)(?:<sym>)?, (\w+)\), "(\w+)"\),', l)
            assert m.group(1) == cur and m.group(3) == cur, l
            mem.append(f'("{m.group(2)}", "{m.group(4)}", "{m.group(5)}")')
        if l.startswith("};") and cur:
            assert count == len(mem) and cur in structs
            out.append(f"(** meta_gen/{f}.hpp {start}-{n} *)\nDefinition {cur}_list : list (string * string * string) :=\n  [" + ";\n   ".join(mem) + "].")
            cur = None
br = ("BranchUpdate", "BranchOutput", "BranchShortCircuitOutput"); 
C = [  # all_components.hpp 37-40 with component/*.hpp: name, InputType, UpdateType, OutputType, ShortCircuitOutputType
 ("node", "NodeInput", "BaseUpdate", "NodeOutput", "NodeShortCircuitOutput"),
 ("line", "LineInput") + br, ("asym_line", "AsymLineInput") + br, ("link", "LinkInput") + br,
 ("generic_branch", "GenericBranchInput") + br,
 ("transformer", "TransformerInput", "TransformerUpdate") + br[1:],
 ("three_winding_transformer", "ThreeWindingTransformerInput", "ThreeWindingTransformerUpdate", "Branch3Output", "Branch3ShortCircuitOutput"),
]
for n, i, u in (("shunt", "ShuntInput", "ShuntUpdate"), ("source", "SourceInput", "SourceUpdate"),
                ("sym_gen", "LoadGenInput true", "LoadGenUpdate true"), ("asym_gen", "LoadGenInput false", "LoadGenUpdate false"),
                ("sym_load", "LoadGenInput true", "LoadGenUpdate true"), ("asym_load", "LoadGenInput false", "LoadGenUpdate false")):
    C.append((n, i, u, "ApplianceOutput", "ApplianceShortCircuitOutput"))
for k, T in (("power", "Power"), ("voltage", "Voltage"), ("current", "Current")):
    for s, b in (("sym", "true"), ("asym", "false")):
        C.append((f"{s}_{k}_sensor", f"{T}SensorInput {b}", f"{T}SensorUpdate {b}", f"{T}SensorOutput", "SensorShortCircuitOutput"))
C.append(("fault", "FaultInput", "FaultUpdate", "FaultOutput", "FaultShortCircuitOutput"))
C.append(("transformer_tap_regulator", "TransformerTapRegulatorInput", "TransformerTapRegulatorUpdate", "TransformerTapRegulatorOutput", "RegulatorShortCircuitOutput"))
C.append(("voltage_regulator", "VoltageRegulatorInput", "VoltageRegulatorUpdate", "VoltageRegulatorOutput", "RegulatorShortCircuitOutput"))
def st(s, b=None):
    base = s.split()[0]
    a = s if (" " in s or not is_sym[base]) else f"{s} {b}"
    assert base in structs and ((" " in a) == is_sym[base]), s
    return f"({a})", f"{base}_list"
def ds(name, idx, b=None):
    rows = [f'("{c[0]}", ' + ", ".join(st(c[idx], b)) + ")" for c in C]
    return f'("{name}",\n   [' + ";\n    ".join(rows) + "])"
out.append('''(** all_components.hpp 37-40, meta_data_gen.hpp 23-28 and the names InputType, UpdateType, OutputType and
    ShortCircuitOutputType of the components (component/*.hpp): the structs of every component, per dataset. *)
Definition dataset_structs : list (string * list (string * list field * list (string * string * string))) :=
  [''' + ";\n  ".join([ds("input", 1), ds("update", 2), ds("sym_output", 3, "true"), ds("asym_output", 3, "false"), ds("sc_output", 4)]) + "].")
def inst(x, b): return f"({x} {b})" if is_sym[x] else x
pairs = [f"({inst(d, b)}, {inst(e, b)})" for d, e in conv for b in (("true", "false") if is_sym[d] else ("",))]
out.append('''(** auxiliary/{input,update,output}.hpp: the conversions of a struct to another one, operator Other&, which are reinterpret_cast (lines
    25, 37, 51 and so on); those of templates for both values of sym. *)
Definition conversions : list (list field * list field) :=
  [''' + ";\n   ".join(pairs) + "].")
(pathlib.Path(__file__).resolve().parent.parent / "rocq/theories/MetaTables.v").write_text("\n".join(out) + "\n")
print(len(structs), "structs", len(conv), "conversions")

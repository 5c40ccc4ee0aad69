#!/usr/bin/env python3
"""Generates rocq/theories/Fixtures.v from /repo/tests: the repository's own tests of the qlc command,
as vm_compute checks of the model's fidelity.  The schema file of those tests is made here from
schema.graphql (the tests make it with graphql-js); everything else is read by the model itself."""
import os, re, json
ROOT = "/repo/tests/fixtures"

TOK = re.compile(r'''(?P<ws>[\s,]+)|(?P<com>\#[^\n]*)|(?P<blk>"""(?:.|\n)*?""")|(?P<str>"(?:[^"\\]|\\.)*")|(?P<dots>\.\.\.)|(?P<name>[_A-Za-z]\w*)|(?P<num>-?\d+(\.\d+)?)|(?P<p>[{}()\[\]:!=|&@$])''')

def toks(s):
    out, i, line, col = [], 0, 1, 1
    while i < len(s):
        m = TOK.match(s, i)
        if not m: raise SyntaxError((i, s[i:i+20]))
        t = m.group(0)
        if m.lastgroup not in ("ws", "com") and not m.group("ws") and not m.group("com"):
            k = "name" if m.group("name") else "str" if (m.group("str") or m.group("blk")) else "num" if m.group("num") else "p"
            out.append((k, t, line, col))
        for c in t:
            if c == "\n": line += 1; col = 1
            else: col += 1
        i = m.end()
    return out

class P:
    def __init__(self, s): self.t = toks(s); self.i = 0
    def peek(self, k=0): return self.t[self.i+k][1] if self.i+k < len(self.t) else None
    def kind(self): return self.t[self.i][0] if self.i < len(self.t) else None
    def pos(self): return self.t[self.i][2:4]
    def next(self): self.i += 1; return self.t[self.i-1][1]
    def eat(self, x):
        assert self.peek() == x, (x, self.t[self.i]); self.i += 1
    def opt(self, x):
        if self.peek() == x: self.i += 1; return True
        return False

def q(s): return '"' + s.replace('"', '""') + '"'
def lst(l): return "[" + "; ".join(l) + "]"
def opt(x, f=q): return "None" if x is None else "(Some " + f(x) + ")"
def pos(p): return "{| pos_line := %d; pos_col := %d |}" % p

# ---- types
def ptype(p):
    if p.opt("["):
        t = ("L", ptype(p)); p.eat("]")
    else: t = ("N", p.next())
    if p.opt("!"): t = ("NN", t)
    return t
def skip_balanced(p, a, b):
    p.eat(a); d = 1
    while d:
        t = p.next()
        if t == a: d += 1
        if t == b: d -= 1
def args(p):
    if p.peek() == "(": skip_balanced(p, "(", ")")
def dirs(p):
    while p.opt("@"):
        p.next(); args(p)

# ---- schema SDL
def parse_sdl(s):
    p = P(s); types = []
    while p.peek() is not None:
        desc = p.next()[1:-1] if p.kind() == "str" else None
        k = p.next()
        if k == "schema": skip_balanced(p, "{", "}"); continue
        n = p.next(); impl = []; fields = []; vals = []; members = []
        if p.opt("implements"):
            impl.append(p.next())
            while p.opt("&"): impl.append(p.next())
        dirs(p)
        if k == "enum":
            p.eat("{")
            while not p.opt("}"): vals.append(p.next())
        elif k == "union":
            p.eat("="); members.append(p.next())
            while p.opt("|"): members.append(p.next())
        elif k in ("type", "interface", "input"):
            p.eat("{")
            while not p.opt("}"):
                fd = p.next()[1:-1] if p.kind() == "str" else None
                fn = p.next(); args(p); p.eat(":"); t = ptype(p)
                dep = False
                while p.opt("@"):
                    if p.next() == "deprecated": dep = True
                    args(p)
                fields.append((fn, fd, t, dep))
        types.append((k, n, desc, impl, fields, vals, members))
    return types

KIND = {"type": "OBJECT", "interface": "INTERFACE", "input": "INPUT_OBJECT", "enum": "ENUM", "union": "UNION", "scalar": "SCALAR"}
def introspection(types):
    kinds = {n: KIND[k] for (k, n, *_ ) in types}
    for b in ("Boolean", "String", "Int", "Float", "ID"): kinds[b] = "SCALAR"
    def jtype(t):
        if t[0] == "N": return {"kind": kinds[t[1]], "name": t[1], "ofType": None}
        return {"kind": "LIST" if t[0] == "L" else "NON_NULL", "name": None, "ofType": jtype(t[1])}
    out = []
    for (k, n, desc, impl, fields, vals, members) in types:
        poss = members if k == "union" else [m for (k2, m, _, im, *_r) in types if n in im and k2 == "type"] if k == "interface" else None
        out.append({"kind": KIND[k], "name": n, "description": desc,
            "fields": [{"name": fn, "description": fd, "args": [], "type": jtype(t), "isDeprecated": dep, "deprecationReason": None} for (fn, fd, t, dep) in fields] if k in ("type", "interface") else None,
            "inputFields": [{"name": fn, "description": fd, "type": jtype(t), "defaultValue": None} for (fn, fd, t, dep) in fields] if k == "input" else None,
            "interfaces": [{"kind": "INTERFACE", "name": i, "ofType": None} for i in impl] if k == "type" else None,
            "enumValues": [{"name": v, "description": None, "isDeprecated": False, "deprecationReason": None} for v in vals] if k == "enum" else None,
            "possibleTypes": [{"kind": "OBJECT", "name": m, "ofType": None} for m in poss] if poss is not None else None})
    for b in ("Boolean", "String", "Int", "Float", "ID"):
        out.append({"kind": "SCALAR", "name": b, "description": None, "fields": None, "inputFields": None, "interfaces": None, "enumValues": None, "possibleTypes": None})
    return json.dumps({"data": {"__schema": {"queryType": {"name": "Query"}, "mutationType": {"name": "Mutation"}, "subscriptionType": None, "types": out}}})

def pieces(t): return "  join \"\" " + lst(q(t[i:i+400]) for i in range(0, len(t), 400))

HEADER = "/* eslint-disable */\n// This file was automatically generated and should not be edited.\n\n"
NOENT = "No such file or directory (os error 2)"

# the tests of /repo/tests/cli.rs and /repo/tests/schema.rs; the directory is /r
D = "default"
CLI = [ # name, fixture directory, schema file, config file, arguments, exit code, texts on standard output
 ("run_with_empty_dir", None, D, None, [], 0, []),
 ("run_without_schema_file", None, None, None, [], 1, ["/schema.json`: No such file or directory"]),
 ("compile_with_importing_query_instead_of_fragment", "cli/compile_with_importing_query_instead_of_fragment", D, None, [], 1,
   ["= help: This document is not a fragment, and importing it is probably a mistake.", "#import \"./imported_query.graphql\"\n  |         ^", "--> /r/main_query.graphql"]),
 ("compile_with_missing_fragment", "cli/compile_with_missing_fragment", D, None, [], 1,
   ["error: could not read `/r/./not_here.graphql`: " + NOENT, "#import \"./not_here.graphql\"\n  |         ^", "--> /r/importing_missing_query.graphql"]),
 ("run_with_unparseable_graphql", "cli/run_with_unparseable_graphql", D, None, [], 1, ["--> /r/unparseable.graphql"]),
 ("run_with_broken_config_file", None, D, "{ \"notValidJson: true }", [], 1, ["program error: error in config file", ".qlcrc.json`"]),
 ("run_with_config_file_missing_schema", None, D, "{ \"schemaFile\": \"not_default_schema.json\" }", [], 1, ["error: could not read `/r/not_default_schema.json`: " + NOENT]),
 ("run_with_invalid_config_file_schema_and_valid_cli_override", None, D, "{ \"schemaFile\": \"not_default_schema.json\" }", ["-s", "/r/schema.json"], 0, []),
 ("run_with_invalid_cli_schema_arg", None, D, None, ["-s", "not_a_real_file.json"], 1, ["error: could not read `not_a_real_file.json`: " + NOENT]),
 ("run_with_invalid_schema_json_syntax", None, "{ \"notvalidJs: true ", None, [], 1, ["error: malformed schema: JSON parse error: "]),
 ("run_with_wrong_shape_schema_json", None, "{ \"unexpected\": 3 }", None, [], 1, ["error: malformed schema: JSON parse error: "]),
 ("compile_with_use_show_deprecation_warnings", "cli/compile_with_use_show_deprecation_warnings", D, None, ["--show-deprecation-warnings"], 0,
   ["warning: use of deprecated field `publicRSAKey` on type `User`", "4 |     publicRSAKey\n  |     ^"]),
 ("compile_with_non_schema_matching_graphql", "schema/compile_with_non_schema_matching_graphql", D, None, [], 1,
   ["= help: Check the fields of `Query`.", "2 |   doesNotExist\n  |   ^", "3 |   alsoIsNot: nonExistent\n  |   ^", "--> /r/bad_schema_query.graphql:3:3", "--> /r/bad_schema_query.graphql:2:3"]),
 ("compile_with_narrowing", "cli/compile_with_narrowing", D, None, [], 0,
   ["= help: The parent types of this spread are limited to `User`, making spreading `Host` extraneous.", "6 |     ...SpreadOnHost\n  |        ^", "--> /r/narrow_query.graphql:6:8",
    "= help: The parent types of this spread are limited to `User`, making spreading `Network` extraneous.", "7 |     ... on Network {\n  |         ^", "--> /r/narrow_query.graphql:7:9"]),
]
def typescript_tests():
    out = []
    for dp, dn, fn in sorted(os.walk("/repo/tests")):
        for f in sorted(fn):
            if not f.endswith(".rs"): continue
            for m in re.finditer(r"fn (compile_\w+)\(\) \{(.*?)\n\}", open(os.path.join(dp, f)).read(), re.S):
                b = m.group(2); d = re.search(r'with_fixture_directory\("(typescript/[^"]*)"\)', b)
                if not d: continue
                assert "run_for_success" in b
                out.append((m.group(1), d.group(1), D, None, re.findall(r'with_arg\("([^"]*)"\)', b), 0, []))
    return out

def main():
    o = []
    o.append('''(** GENERATED by tools/fixtures.py from /repo/tests: the repository's own tests of the qlc command, run on
    the model.  Each check runs the process on the command line of the test with the files of the test as
    texts (documents, schema, configuration), and compares the exit code, the texts expected on standard
    output, and every expected file byte for byte, under two different hash orders.  Not compared: the
    words of serde_json and graphql_parser.  These are fidelity tests of the model, not proofs of
    properties. *)
From Verif Require Import Main Json Gql Args Strsim.
Set Warnings "-abstract-large-number".

Definition fx_schema_text : string :=
''' + pieces(introspection(parse_sdl(open(ROOT + "/schema_generation/schema.graphql").read()))) + '''.

Definition id_order : order := fun _ _ l => l.
Definition rev_order : order := fun _ _ l => rev l.

(** a test: contents of the schema file, if any; whether the config file is passed; files; directories with the
    names and kinds (true: file) in them; arguments; what is expected *)
Record fixture := { fx_files : list (string * string); fx_dirs : list (string * list (string * bool));
                    fx_args : list string; fx_code : nat; fx_says : list string; fx_expected : list (string * string) }.

Definition no_such_file : string := "No such file or directory (os error 2)".
Definition fx_fs (x : fixture) : fs :=
  fun l => match find (fun d => String.eqb (fst d) l) (fx_files x) with Some d => Ok (snd d) | None => Err no_such_file end.
(** resolves the dot pieces of the paths occurring in the fixtures *)
Definition fx_locate (p : string) : string :=
  (if fst (components p) then "/" else "") +++ join "/" (snd (components p)).
Definition fx_env (o : order) : env :=
  {| env_parse := fun s => match parse_query {| gk_number := fun _ => true; gk_string := fun _ => true |} s with
                           | Some d => Ok d | None => Err "query parse error: Parse error" end;
     env_locate := fx_locate; env_write := fun _ => WOk;
     env_similar := similar_names; env_order := fun _ => o |}.
Definition fx_world (x : fixture) (o : order) : world :=
  {| wo_env := fx_env o;
     wo_listing := fun d => match find (fun e => String.eqb (fst e) (fx_locate d)) (fx_dirs x) with
                            | Some e => Ok (List.map (fun n => Ok {| de_name := fst n; de_kind := Ok (if snd n : bool then EkFile else EkDir) |}) (snd e))
                            | None => Err no_such_file
                            end;
     wo_ncpus := 4;
     wo_config := fun p => match fx_fs x (fx_locate p) with Ok t => config_of_text "JSON error" t | Err e => CRNotFound e end;
     wo_schema := fun p => match fx_fs x (fx_locate p) with Ok t => schema_of_text "JSON error" t | Err e => SRIoError e end;
     wo_fs := fx_fs x |}.
Fixpoint says (t s : string) : bool := starts_with t s || match s with EmptyString => false | String _ s' => says t s' end.
Definition fx_sched : list nat := repeat 0 150 ++ List.concat (repeat [1; 0] 60).
Definition fx_check (x : fixture) (o : order) : bool :=
  match qlc_command "" "" 50 (fx_world x o) ("--num-threads=2" :: "/r" :: fx_args x) fx_sched with
  | Exited code out f =>
      Nat.eqb code (fx_code x) && forallb (fun t => says t out) (fx_says x) &&
      forallb (fun e => match f (fst e) with Ok c => String.eqb c (snd e) | Err _ => false end) (fx_expected x)
  | _ => false
  end.
''')
    names = []
    for (name, dirname, schema, rc, argv, code, texts) in typescript_tests() + CLI:
        files, exp, dirs_ = [], [], []
        if dirname:
            dp = ROOT + "/" + dirname
            for dp2, dn2, fn2 in sorted(os.walk(dp)):
                r = os.path.relpath(dp2, dp); base = "/r" if r == "." else "/r/" + r
                ents = [(n, False) for n in sorted(dn2)]
                for f in sorted(fn2):
                    c = open(os.path.join(dp2, f)).read()
                    if f.endswith(".graphql"): files.append((base + "/" + f, c)); ents.append((f, True))
                    elif f.endswith(".ts"): exp.append("(%s, %s)" % (q(base + "/" + f), q(HEADER + c.strip())))
                    else: assert False, f
                dirs_.append((base, ents))
        else: dirs_.append(("/r", []))
        argv = list(argv)
        if rc is not None:
            files.append(("/r/.qlcrc.json", rc)); argv = ["-c", "/r/.qlcrc.json"] + argv; dirs_[0][1].append((".qlcrc.json", True))
        if schema is not None: dirs_[0][1].append(("schema.json", True))
        fl = ["(%s, %s)" % (q(a), q(b)) for a, b in files]
        if schema is not None: fl.append("(%s, %s)" % (q("/r/schema.json"), "fx_schema_text" if schema == D else q(schema)))
        dl = ["(%s, %s)" % (q(a), lst("(%s, %s)" % (q(n), "true" if k else "false") for n, k in b)) for a, b in dirs_]
        o.append("Definition fx_%s : fixture :=\n  {| fx_files := %s;\n  fx_dirs := %s;\n  fx_args := %s; fx_code := %d;\n  fx_says := %s;\n  fx_expected := %s |}.\n" % (
            name, lst(fl), lst(dl), lst(map(q, argv)), code, lst(map(q, texts)), lst(exp)))
        o.append("Example fx_%s_ok : fx_check fx_%s id_order && fx_check fx_%s rev_order = true.\nProof. vm_compute. reflexivity. Qed.\n" % (name, name, name))
        names.append(name)
    open("/verif/rocq/theories/Fixtures.v", "w").write("\n".join(o))
    print(len(names), "fixtures")
main()

#!/usr/bin/env python3
"""Seeded-bug runs, in a scratch copy outside /verif.

usage: mutate.py SPECS.json [--log]

SPECS.json is a list of {"file", "definition", "old", "new", "edit", "breaks": [...], "claim"}.
Each edit is applied alone to a built scratch copy.  Where a proof no longer compiles it is
replaced by a hole (an axiom of the scratch copy), with the section variables of the original
proof, until everything builds; the theorems of the T_ files that then depend on the hole are the
ones that failed.  Only the T_ files with theorems of the properties in "breaks" are built and looked
at, unless MUTALL is set.
"""
import json, os, re, shutil, subprocess, sys

BASE = "/tmp/mut/base%s" % os.environ.get("MUTB", "")
WORK = "/tmp/mut/work%s" % os.environ.get("MUTW", "")
JOBS = os.environ.get("MUTJ", "3")
HOLE = "Require Verif.Hole_."

def sh(cmd, cwd=None, timeout=3000):
    return subprocess.run(cmd, shell=True, cwd=cwd, capture_output=True, text=True, timeout=timeout)

def closure(roots):
    """The files that the given ones need (MUTT: a base of some T_ files only)."""
    out, todo = set(), list(roots)
    while todo:
        f = todo.pop()
        if f in out: continue
        out.add(f)
        t = open("/verif/rocq/theories/%s.v" % f).read()
        for m in re.finditer(r"From Verif Require (?:Import|Export)?([^.]*(?:\.[\w'][^.]*)*)\.", t):
            todo += [w for w in m.group(1).split() if os.path.exists("/verif/rocq/theories/%s.v" % w)]
    return out

def prepare():
    """Scratch copy with a hole available in every file, and what sections variables proofs use."""
    if os.path.exists(BASE): shutil.rmtree(BASE)
    os.makedirs(BASE + "/theories")
    files = closure(os.environ["MUTT"].split()) if "MUTT" in os.environ else None
    for f in os.listdir("/verif/rocq/theories"):
        if f.endswith(".v") and (files is None or f[:-2] in files):
            s = open("/verif/rocq/theories/" + f).read()
            open(BASE + "/theories/" + f, "w").write("Require Verif.Hole_. Set Suggest Proof Using.\n" + s)
    open(BASE + "/theories/Hole_.v", "w").write("Axiom hole : forall P : Prop, P.\n")
    p = open("/verif/rocq/_CoqProject").read().rstrip() + "\ntheories/Hole_.v\n"
    if files is not None:
        p = "\n".join(l for l in p.split("\n") if not l.startswith("theories/") or l[9:-2] in files | {"Hole_"}) + "\n"
    open(BASE + "/_CoqProject", "w").write(p)
    r = sh("coq_makefile -f _CoqProject -o Makefile && make -k -j4 2>&1", BASE)
    using = {}
    for m in re.finditer(r"The proof of ([\w']+)\s+should start with one of the following commands:\s+Proof using([^.]*)\.", r.stdout):
        using[m.group(1)] = m.group(2).strip()
    json.dump(using, open(BASE + "/using.json", "w"))
    print("base built, rc", r.returncode, "proofs in sections", len(using))

START = re.compile(r"^\s*(?:Local\s+|Global\s+|#\[.*\]\s*)?(Lemma|Theorem|Example|Corollary|Remark|Fact|Instance)\s+([\w']+)")
ANY = re.compile(r"^\s*(?:Local\s+)?(Lemma|Theorem|Example|Corollary|Remark|Fact|Instance|Definition|Fixpoint|Ltac|Inductive|Notation)\s+([\w']+)")

def patch(path, line, using):
    """Replace the proof around [line] by a hole; returns the name."""
    L = open(path).read().split("\n")
    i = min(line - 1, len(L) - 1)
    while i >= 0 and not ANY.match(L[i]): i -= 1
    if i < 0 or not START.match(L[i]): return None, (L[i] if i >= 0 else "")
    name = START.match(L[i]).group(2)
    text = "\n".join(L[i:])
    m = re.search(r"\bProof\b[^.]*\.", text)
    e = re.search(r"\b(Qed|Defined)\.", text)
    if not m or not e or "Verif.Hole_.hole" in text[:e.end()]: return None, name
    u = using.get(name)
    head = "Proof." if u is None else "Proof using%s." % (" " + u if u else " Type" if False else (" " + u))
    if u == "": head = "Proof using."
    new = text[:m.start()] + head + " intros; exact (Verif.Hole_.hole _). Qed." + text[e.end():]
    open(path, "w").write("\n".join(L[:i]) + "\n" + new)
    return name, None

def run(spec, using):
    if os.path.exists(WORK): shutil.rmtree(WORK)
    sh("cp -a %s %s" % (BASE, WORK))
    p = WORK + "/theories/" + spec["file"]
    s = open(p).read()
    # with "after", the first occurrence of "old" behind that text is edited
    at = s.find(spec["after"]) if "after" in spec else 0
    if at < 0 or spec["old"] not in s[at:] or ("after" not in spec and s.count(spec["old"]) != 1):
        return {"error": "pattern occurs %d times" % s.count(spec["old"])}
    open(p, "w").write(s[:at] + s[at:].replace(spec["old"], spec["new"], 1))
    holes, broken = [], []
    tfiles = [f for f in sorted(os.listdir(WORK + "/theories")) if f.startswith("T_") and f.endswith(".v")]
    if "MUTALL" not in os.environ:
        tfiles = [f for f in tfiles if any(re.search(r"^Theorem %s_" % b, open(WORK + "/theories/" + f).read(), re.M) for b in spec["breaks"])]
    goals = " ".join("theories/%so" % f for f in tfiles)
    for it in range(60):
        r = sh("make -k -j%s %s 2>&1" % (JOBS, goals), WORK)
        if r.returncode == 0: break
        errs = re.findall(r'File "\./theories/([\w]+\.v)", line (\d+)[^\n]*\n(?:\s*\n)*Error', r.stdout)
        if not errs:
            return {"error": "no error position: " + r.stdout[-800:]}
        progress = False
        for f, ln in dict(errs).items():
            name, bad = patch(WORK + "/theories/" + f, int(ln), using)
            if name: holes.append(name); progress = True
            else:
                broken.append("%s:%s %s" % (f, ln, bad))
        if not progress:
            m = re.search(r"Error:.*?(?=\nmake|\Z)", r.stdout, re.S)
            return {"error": "definition no longer typechecks: " + "; ".join(broken), "msg": m.group(0)[:600] if m else "", "holes": holes}
    failed, okay = [], []
    for f in tfiles:
        src = open(WORK + "/theories/" + f).read()
        names = re.findall(r"^Print Assumptions ([\w']+)\.", src, re.M)
        out = sh("coqc -Q theories Verif theories/%s 2>/dev/null" % f, WORK).stdout
        parts = re.split(r"(?m)^(Closed under the global context|Axioms:)", out)
        verdicts = parts[1::2]
        if len(verdicts) != len(names): return {"error": "assumptions of %s: %d names %d verdicts" % (f, len(names), len(verdicts))}
        bodies = parts[2::2]
        for n, v, b in zip(names, verdicts, bodies):
            (failed if v == "Axioms:" and "hole" in b else okay).append(n)
    ex = [h for h in holes if re.match(r"C\d\d+_", h) or h.startswith("ex")]
    return {"failed": failed, "holes": holes, "examples": [h for h in ex if h not in failed]}

def main():
    if sys.argv[1] == "--prepare": return prepare()
    specs = json.load(open(sys.argv[1]))
    using = json.load(open(BASE + "/using.json"))
    for k, sp in enumerate(specs):
        try: r = run(sp, using)
        except subprocess.TimeoutExpired: r = {"error": "timeout"}
        ids = sorted(set(n.split("_")[0] for n in r.get("failed", [])))
        missed = [b for b in sp["breaks"] if b not in ids]
        print(json.dumps({"n": k, "def": sp["definition"], "edit": sp["edit"], "breaks": sp["breaks"], "missed": missed, **r}), flush=True)
        if "--log" in sys.argv and "error" not in r:
            with open("/verif/seeded/LOG.jsonl", "a") as o:
                o.write(json.dumps({"definition": sp["definition"], "file": sp["file"], "edit": sp["edit"], "claim": sp["claim"],
                    "breaks": sp["breaks"], "theorems_failed": r["failed"], "examples_failed": r["examples"], "missed": missed,
                    "theorems_tightened": []}) + "\n")
main()

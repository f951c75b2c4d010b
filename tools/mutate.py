#!/usr/bin/env python3
"""Mutation tests of the model, in scratch copies (never in /verif/rocq).

  mutate.py mutants/foo.json [-j N]

A mutants file is a JSON list of objects {file, def, old, new, edit, breaks: ["Cxx", ...]}: [old] (which
must occur exactly once in theories/<file>.v) is replaced by [new].  Everything that depends on the file
is rebuilt.  A lemma whose proof no longer goes through is admitted in the scratch copy, and the build
goes on; in the end Print Assumptions tells which theorems of MANIFEST.json rest on an admitted lemma:
these are the theorems that failed.  One JSON line per mutant is printed and appended to
seeded/LOG.jsonl (unless --dry)."""
import json, os, re, shutil, subprocess, sys, tempfile
from concurrent.futures import ThreadPoolExecutor
ROOT = os.path.dirname(os.path.dirname(os.path.abspath(__file__)))
SRC = os.path.join(ROOT, "rocq", "theories")
STMT = re.compile(r"^[ \t]*(?:#\[[^\]]*\]\s*)?(?:Local |Global )?(Theorem|Lemma|Corollary|Example|Fact|Remark|Proposition|Instance)\s+([A-Za-z0-9_']+)", re.M)
END = re.compile(r"\b(Qed|Defined|Admitted)\.")

def deps():
    files = [l.strip() for l in open(os.path.join(ROOT, "rocq", "_CoqProject")) if l.strip().endswith(".v")]
    names = [os.path.basename(f)[:-2] for f in files]
    d = {}
    for n in names:
        t = open(os.path.join(SRC, n + ".v")).read()
        ms = re.findall(r"From Verif Require (?:Import|Export)?([^.]*)\.", t)
        d[n] = {x for m in ms for x in m.split()}
    return names, d
NAMES, DEPS = deps()
def closure(n):
    c = {n}; ch = True
    while ch:
        ch = False
        for m in NAMES:
            if m not in c and DEPS[m] & c: c.add(m); ch = True
    order = []
    def visit(m):
        if m in order or m not in c: return
        for k in sorted(DEPS[m]): visit(k)
        order.append(m)
    for m in NAMES: visit(m)
    return order

def theorem_files():
    where = {}
    for n in NAMES:
        for m in STMT.finditer(open(os.path.join(SRC, n + ".v")).read()): where.setdefault(m.group(2), n)
    return where
WHERE = theorem_files()
MAN = json.load(open(os.path.join(ROOT, "MANIFEST.json")))["claims"]

def coqc(dir, n, timeout=240):
    try:
        r = subprocess.run(["coqc", "-Q", ".", "Verif", n + ".v"], cwd=dir, capture_output=True, text=True, timeout=timeout)
        return r.returncode, r.stdout + r.stderr
    except subprocess.TimeoutExpired:
        # find the sentence that does not end
        p = subprocess.run(["timeout", str(timeout), "coqc", "-time", "-Q", ".", "Verif", n + ".v"], cwd=dir, capture_output=True, text=True)
        ends = [int(x) for x in re.findall(r"Chars \d+ - (\d+)", p.stdout)]
        return 124, "OFFSET %d" % (max(ends) if ends else 0)

def build(dir, n, admitted):
    path = os.path.join(dir, n + ".v")
    for _ in range(60):
        rc, out = coqc(dir, n)
        if rc == 0: return None
        text = open(path, "rb").read()
        m = re.search(r"line (\d+), characters (\d+)", out)
        if rc == 124: off = int(out.split()[1]) + 1
        elif m:
            lines = text.split(b"\n"); off = sum(len(l) + 1 for l in lines[:int(m.group(1)) - 1]) + int(m.group(2))
        else: return "build error: " + out[-300:]
        s = text.decode(); pre = text[:off].decode(errors="ignore")
        sts = list(STMT.finditer(s[:len(pre) + 1]))
        if not sts: return "ill-formed: " + out[-300:]
        st = sts[-1]; e = END.search(s, st.end())
        if not e or e.end() < len(pre) - 1 or e.group(1) == "Admitted": return "ill-formed at %s: %s" % (st.group(2), out[-300:])
        body = s[st.start():e.end()]
        p = re.search(r"\bProof\b[^.]*\.", body)
        if not p: return "no Proof. in " + st.group(2)
        s = s[:st.start()] + body[:p.start()] + "Proof. Admitted." + s[e.end():]
        open(path, "w").write(s); admitted.append(n + "." + st.group(2))
    return "too many failures"

def run(mut):
    dir = tempfile.mkdtemp(prefix="mut", dir="/tmp")
    try:
        for f in os.listdir(SRC):
            if f.endswith((".v", ".vo")): shutil.copy2(os.path.join(SRC, f), dir)
        path = os.path.join(dir, mut["file"] + ".v"); s = open(path).read()
        if s.count(mut["old"]) != 1: return dict(mut, error="old occurs %d times" % s.count(mut["old"]))
        open(path, "w").write(s.replace(mut["old"], mut["new"]))
        order = closure(mut["file"]); admitted = []
        for n in order:
            err = build(dir, n, admitted)
            if err: return dict(mut, error=err, admitted=admitted)
        thms = [(c["property"], t) for c in MAN for t in c["theorems"] if WHERE.get(t) in order]
        bad = {a.split(".")[1] for a in admitted}
        if bad and thms:
            q = os.path.join(dir, "Qq.v")
            with open(q, "w") as f:
                for n in sorted({WHERE[t] for _, t in thms}): f.write("From Verif Require %s.\n" % n)
                for _, t in thms: f.write('Redirect "pa_%s" Print Assumptions %s.%s.\n' % (t, WHERE[t], t))
            rc, out = coqc(dir, "Qq", 600)
            if rc: return dict(mut, error="Qq " + out[-300:], admitted=admitted)
        failed = []
        for c, t in thms:
            if not bad: break
            o = open(os.path.join(dir, "pa_%s.out" % t)).read()
            if "Closed under" not in o: failed.append(t)
        props = sorted({c for c, t in thms if t in failed})
        return dict(mut, admitted=admitted, failed=failed, props=props)
    finally:
        shutil.rmtree(dir, ignore_errors=True)

def main():
    muts = json.load(open(sys.argv[1])); dry = "--dry" in sys.argv
    if "-k" in sys.argv: muts = [m for m in muts if sys.argv[sys.argv.index("-k") + 1] in (m["def"] + " " + m["file"] + " " + m["edit"])]
    if "--tightened" in sys.argv: muts = [m for m in muts if "tightened" in m]
    j = int(sys.argv[sys.argv.index("-j") + 1]) if "-j" in sys.argv else 4
    subprocess.run("make -j4 >/dev/null", shell=True, check=True, cwd=os.path.join(ROOT, "rocq"))  # the baseline must be built
    with ThreadPoolExecutor(j) as ex:
        for r in ex.map(run, muts):
            if "error" in r: print("ERR ", r["def"], "|", r["edit"], "|", r["error"], r.get("admitted")); continue
            caught = [c for c in r["breaks"] if c in r["props"]]
            missed = [c for c in r["breaks"] if c not in r["props"]]
            print("OK  " if not missed else "WEAK", r["def"], "|", r["edit"], "| caught", caught, "missed", missed, "| first", r["admitted"][:3], "n", len(r["failed"]))
            sys.stdout.flush()
            if not dry:
                with open(os.path.join(ROOT, "seeded", "LOG.jsonl"), "a") as f:
                    f.write(json.dumps({"definition": r["file"] + "." + r["def"], "edit": r["edit"], "claim": ", ".join(r["breaks"]),
                        "theorems_failed": r["failed"], "first_broken_lemmas": r["admitted"][:5], "not_detected_for": missed,
                        "theorems_tightened": mut_t(r)}) + "\n")
def mut_t(r): return r.get("tightened", [])
if __name__ == "__main__": main()

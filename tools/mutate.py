#!/usr/bin/env python3
"""Try wrong programs: apply one edit to a model file in a scratch copy of rocq/,
rebuild, admit every lemma whose proof breaks, and list the property theorems that
rest on an admitted lemma (by name, through the proof texts).

usage: mutate.py EDITS.jsonl [OUT.jsonl]
each edit: {"definition","file","old","new","edit","claim"}"""
import glob, json, os, re, subprocess, sys
SRC = "/verif/rocq"
DIR = os.environ.get("MUTDIR", "/tmp/mut")
JOBS = os.environ.get("MUTJOBS", "2")
BASE, DST = DIR + "/base", DIR + "/work"
WRAP = DIR + "/coqc-limited"
WRAPPER = r'''#!/usr/bin/env python3
# coqc with a time limit; a proof that runs away is reported as an error on its line.
import subprocess, sys, re, tempfile
v = [a for a in sys.argv[1:] if a.endswith(".v")]
with tempfile.TemporaryFile("w+") as o:
    p = subprocess.Popen(["coqc", "-time"] + sys.argv[1:], stdout=o, stderr=subprocess.STDOUT)
    try: rc = p.wait(300)
    except subprocess.TimeoutExpired: p.kill(); p.wait(); rc = 124
    o.seek(0); t = o.read()
ends = re.findall(r"(?m)^Chars (\d+) - (\d+) ", t)
print(re.sub(r"(?m)^Chars .*\n", "", t), end="")
if rc == 124 and v:
    n = open(v[0], "rb").read()[:int(ends[-1][1]) + 2 if ends else 0].count(b"\n") + 1
    print(f'File "./{v[0]}", line {n}, characters 0-0:\nError: time limit')
sys.exit(rc)
'''
HEAD = r"^(Lemma|Theorem|Example|Corollary|Fact|Remark)\s+([\w']+)"
def sh(cmd, **k):
    return subprocess.run(cmd, shell=True, stdout=subprocess.PIPE, stderr=subprocess.STDOUT, text=True, **k).stdout
def make(d):
    return sh(f"cd {d} && timeout 2400 nice make -k -j{JOBS} COQC={WRAP}")
def base():
    """A built copy without the Print Assumptions commands (they are slow)."""
    os.makedirs(DIR, exist_ok=True)
    open(WRAP, "w").write(WRAPPER); os.chmod(WRAP, 0o755)
    sh(f"rm -rf {BASE} && cp -a {SRC} {BASE}")
    for f in glob.glob(BASE + "/theories/*.v"):
        s = open(f).read()
        t = re.sub(r"(?m)^Print Assumptions.*$", "", s)
        t = re.sub(HEAD.replace("^", "(?m)^(") + r"[^\n]*?) (Proof\.[^\n]*(?:Qed|Defined)\.)[ ]*$", r"\1\n\4", t)
        if t != s: open(f, "w").write(t)
    sh(f"cd {BASE} && coq_makefile -f _CoqProject -o Makefile")
    o = make(BASE)
    assert "Error" not in o, o[-2000:]
def admit(path, line):
    L = open(path).read().split("\n")
    i = line - 1
    while i >= 0 and not re.match(HEAD, L[i]): i -= 1
    if i < 0: return None
    name = re.match(HEAD, L[i]).group(2)
    p = i
    while p < len(L) and not re.match(r"\s*Proof\b", L[p]): p += 1
    q = p
    while q < len(L) and not re.search(r"(Qed|Defined|Admitted)\.\s*$", L[q]): q += 1
    if p >= line or q >= len(L) or q < line - 1: return None
    L[p:q + 1] = ["Proof. Admitted."] + [""] * (q - p)
    open(path, "w").write("\n".join(L))
    return name
def graph():
    """lemma -> identifiers of its proof; from the unedited sources."""
    g = {}
    for f in glob.glob(SRC + "/theories/*.v"):
        s = re.sub(r"\(\*.*?\*\)", " ", open(f).read(), flags=re.S)
        for m in re.finditer(r"(?ms)" + HEAD + r"(.*?)(?:Qed|Defined)\.\s*$", s):
            body = m.group(3)
            g[m.group(2)] = set(re.findall(r"[\w']+", body[body.find("Proof"):]))
    return g
def run(e, G, props):
    sh(f"rm -rf {DST} && cp -a {BASE} {DST}")
    f = f"{DST}/theories/{e['file']}.v"
    s = open(f).read()
    if s.count(e["old"]) != 1:
        return {"error": "pattern occurs %d times" % s.count(e["old"])}
    open(f, "w").write(s.replace(e["old"], e["new"]))
    admitted, broken = [], []
    for _ in range(80):
        out = make(DST)
        errs = {}
        for m in re.finditer(r'File "\./theories/(\w+)\.v", line (\d+), characters [\d-]+:\n(Error)', out):
            errs.setdefault(m.group(1), int(m.group(2)))
        if not errs: break
        stuck = True
        for g, n in errs.items():
            name = admit(f"{DST}/theories/{g}.v", n)
            if name: admitted.append(name); stuck = False
            elif (g, n) not in broken: broken.append((g, n))
        if stuck: break
    bad = set(admitted)
    while True:
        more = {k for k, v in G.items() if k not in bad and v & bad}
        if not more: break
        bad |= more
    failed = [p for p in props if p in bad]
    return {"admitted": admitted, "broken_files": broken, "theorems_failed": failed, "n_held": len(props) - len(failed)}
base()
G = graph()
props = []
for f in sorted(glob.glob(SRC + "/theories/*Props*.v")):
    props += re.findall(r"^(?:Theorem|Example)\s+(C\d\d+_\w+)", open(f).read(), re.M)
out = open(sys.argv[2], "a") if len(sys.argv) > 2 else None
for l in open(sys.argv[1]):
    if not l.strip(): continue
    e = json.loads(l); r = run(e, G, props)
    print(e["definition"], "|", e["edit"], "\n   admitted", r.get("admitted"), "\n   failed", r.get("theorems_failed"), r.get("broken_files"), r.get("error", ""), flush=True)
    if out:
        out.write(json.dumps({**e, **r}, ensure_ascii=False) + "\n"); out.flush()

"""Seeded-bug test.  Reads JSON objects {name, file, old, new, claim, property} (one per line) from a file,
applies each edit to a scratch copy of rocq/, rebuilds it, replaces every proof that breaks by a
named placeholder axiom, and reports which Props theorems rest on a broken lemma.
Usage: seed.py edits.jsonl [more names to select]   (scratch copies only, never /verif)."""
import json, os, re, shutil, subprocess, sys
SRC = os.environ.get("SEED_SRC", "/verif/rocq")
KW = r"(?:Lemma|Theorem|Corollary|Example|Fact|Remark)"

def order():
    fs = [l.strip() for l in open(SRC + "/_CoqProject") if l.strip().endswith(".v")]
    deps = {}
    names = {os.path.basename(f)[:-2]: f for f in fs}
    for f in fs:
        t = open(os.path.join(SRC, f)).read()
        d = set()
        for m in re.finditer(r"From Verif Require (?:Import|Export)([^.]*)\.", t):
            d |= {names[n] for n in m.group(1).split() if n in names}
        deps[f] = d
    out = []
    def visit(f):
        if f in out: return
        for g in sorted(deps[f]): visit(g)
        out.append(f)
    for f in fs: visit(f)
    return out, deps

def coqc(d, f, to=400):
    try:
        cmd = "ulimit -v 5000000; exec timeout %d coqc -q -w none %s -Q theories Verif %s"
        go = lambda opt: subprocess.run(["bash", "-c", cmd % (to, opt, f)], cwd=d, stdout=subprocess.PIPE, stderr=subprocess.STDOUT, text=True)
        r = go("")
        if r.returncode and not re.search(r'File "[^"]*", line .*\n\s*Error', r.stdout) :
            # ran out of time or memory: blame the sentence after the last one that finished
            r = go("-time")
            ends = re.findall(r"^Chars \d+ - (\d+) ", r.stdout, re.M)
            src = open(os.path.join(d, f), "rb").read()
            pos = int(ends[-1]) + 1 if ends else 0
            while src[pos:pos + 1].isspace(): pos += 1
            line = src[:pos].count(b"\n") + 1
            col = pos - (src[:pos].rfind(b"\n") + 1)
            return 1, 'File "x", line %d, characters %d-%d:\nError: no result' % (line, col, col + 1)
    except Exception as e:
        return 1, str(e)
    return r.returncode, r.stdout

USING = {}
def using(f):
    if f not in USING:
        d = "/tmp/seed_using"
        if not os.path.exists(d): os.makedirs(d)
        t = open(os.path.join(SRC, f)).read()
        g = os.path.join(d, os.path.basename(f))
        open(g, "w").write("Set Suggest Proof Using.\n" + t)
        r = subprocess.run(["coqc", "-q", "-Q", SRC + "/theories", "Verif", g], stdout=subprocess.PIPE, stderr=subprocess.STDOUT, text=True)
        o = " ".join(r.stdout.split())
        USING[f] = {m.group(1): m.group(2) for m in re.finditer(r"The proof of (\S+) should start with one of the following commands: Proof using([^.]*)\.", o)}
        for m in re.finditer(r"The proof of (\S+) should start with: Proof using([^.]*)\.", o): USING[f][m.group(1)] = m.group(2)
    return USING[f]

def cheat(path, f, out):
    m = None
    for m in re.finditer(r'File "[^"]*", line (\d+), characters (\d+)-(\d+):\s*\n\s*Error', out): break
    if not m: return None
    t = open(path).read()
    lines = t.encode().split(b"\n")
    pos = sum(len(l) + 1 for l in lines[:int(m.group(1)) - 1]) + int(m.group(2))
    pos = len(t.encode()[:pos].decode(errors="ignore"))
    last = None
    for s in re.finditer(r"^\s*" + KW + r"\s+(\w+)", t, re.M):
        if s.start() <= pos: last = s
    if last is None: return None
    name = last.group(1)
    p = re.compile(r"\bProof\b[^.]*\.").search(t, last.end())
    q = re.compile(r"\b(?:Qed|Defined)\.").search(t, p.end())
    if not (last.start() <= pos <= q.end()): return None
    u = using(f).get(name, "")
    u = " using" + u if u.strip() else ""
    new = t[:last.start()] + "\nAxiom cheat_%s : forall P : Prop, P.\n" % name + t[last.start():p.start()] + \
        "Proof%s. intros; apply cheat_%s. Qed." % (u, name) + t[q.end():]
    open(path, "w").write(new)
    return name

def run(e):
    d = "/tmp/seed_" + re.sub(r"\W", "_", e["name"])
    shutil.rmtree(d, ignore_errors=True)
    shutil.copytree(SRC, d)
    edits = e.get("edits") or [[e["file"], e["old"], e["new"]]]
    for ef, old, new in edits:
        ef = os.path.join(d, "theories", ef)
        t = open(ef).read()
        if t.count(old) != 1: return {"name": e["name"], "error": "old text occurs %d times" % t.count(old)}
        open(ef, "w").write(t.replace(old, new))
    o, deps = order()
    dirty, broken, trouble, props = set(), [], None, {}
    for f in o:
        if os.path.basename(f) in [x[0] for x in edits] or deps[f] & dirty:
            dirty.add(f)
            while True:
                rc, out = coqc(d, f)
                if rc == 0: break
                n = cheat(os.path.join(d, f), f, out)
                if n is None or len(broken) > 200:
                    trouble = f + ": rc %d: " % rc + out[-600:]
                    break
                broken.append(n)
            if trouble: break
            if os.path.basename(f).startswith("Props"):
                names = re.findall(r"^Print Assumptions (\w+)\.", open(os.path.join(d, f)).read(), re.M)
                chunks = re.split(r"(?=^Closed under|^Axioms:)", out, flags=re.M)
                chunks = [c for c in chunks if c.startswith(("Closed under", "Axioms:"))]
                for n, c in zip(names, chunks): props[n] = re.findall(r"cheat_(\w+)", c)
    shutil.rmtree(d, ignore_errors=True)
    return {"name": e["name"], "broken_lemmas": broken, "failed": sorted({n for n, c in props.items() if c} |
            {n for n in broken if re.match(r"C\d+_", n)}), "trouble": trouble}

if __name__ == "__main__":
    sel = set(sys.argv[2:])
    for l in open(sys.argv[1]):
        if not l.strip(): continue
        e = json.loads(l)
        if sel and e["name"] not in sel: continue
        r = run(e)
        print(json.dumps(r), flush=True)

"""Compile the Props files (after make) and write the Print Assumptions results as a table to ASSUMPTIONS.md."""
import glob, os, re, subprocess
root = os.path.join(os.path.dirname(os.path.abspath(__file__)), "..", "rocq")
groups = {}
for f in sorted(glob.glob(os.path.join(root, "theories", "Props*.v"))):
    src = open(f).read()
    src = re.sub(r"\(\*.*?\*\)", "", src, flags=re.S)
    names = re.findall(r"Print Assumptions (\S+)\.(?:\s|$)", src)
    out = subprocess.run(["coqc", "-Q", "theories", "Verif", "-o", "/tmp/" + os.path.basename(f) + "o", os.path.relpath(f, root)], cwd=root,
                         capture_output=True, text=True)
    assert out.returncode == 0, out.stderr[-2000:]
    blocks, cur = [], None
    for line in out.stdout.splitlines():
        if line.startswith("Closed under the global context"):
            blocks.append(()); cur = None
        elif line.startswith("Axioms:"):
            cur = []; blocks.append(cur)
        elif cur is not None and re.match(r"^\S+ ?:?", line) and not line.startswith(" "):
            cur.append(line.split()[0])
    assert len(blocks) == len(names), (f, len(blocks), len(names))
    for n, b in zip(names, blocks):
        groups.setdefault(tuple(sorted(b)), []).append((os.path.basename(f), n))
with open(os.path.join(root, "..", "ASSUMPTIONS.md"), "w") as o:
    o.write("# Print Assumptions of every theorem\n\nGenerated by tools/assumptions.py from the output of the build.\n")
    for g in sorted(groups, key=lambda g: (len(g), g)):
        o.write("\n## " + ("Closed under the global context" if not g else "Axioms: " + ", ".join(g)) + "\n\n")
        byf = {}
        for f, n in groups[g]:
            byf.setdefault(f, []).append(n)
        for f in byf:
            o.write("* %s: %s\n" % (f, ", ".join(byf[f])))
print({g: len(v) for g, v in groups.items()})

"""Writes MANIFEST.json from NOTES and the theorem names found in rocq/theories/Props*.v."""
import glob, json, os, re
ROOT = os.path.dirname(os.path.dirname(os.path.abspath(__file__)))
NOTES = json.load(open(os.path.join(ROOT, "tools", "notes.json")))
thms = {}
for f in sorted(glob.glob(os.path.join(ROOT, "rocq/theories/Props*.v"))):
    for m in re.finditer(r"^(?:Theorem|Lemma|Corollary)\s+((C\d+)_\w+)", open(f).read(), re.M):
        thms.setdefault(m.group(2), []).append(m.group(1))
claims = []
for line in open(os.path.join(ROOT, "properties.jsonl")):
    i = json.loads(line)["id"]
    t = thms.get(i, [])
    status = "partial" if (not t or any(x.endswith(("_partial", "_refuted")) for x in t)) else "proved"
    note = NOTES.get(i, "")
    if not t and not note:
        note = "Not yet proved."
    claims.append({"property": i, "status": status, "theorems": t, "note": note})
json.dump({"claims": claims}, open(os.path.join(ROOT, "MANIFEST.json"), "w"), indent=1)
print(len(claims), {s: sum(c["status"] == s for c in claims) for s in ("proved", "partial", "not_applicable")},
      [c["property"] for c in claims if not c["theorems"]])

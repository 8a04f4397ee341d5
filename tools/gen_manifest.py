#!/usr/bin/env python3
"""Write MANIFEST.json: every theorem named C##_... under rocq/theories is listed for property C##.
Also refreshes the table of properties in DESIGN.md."""
import glob, json, os, re

ROOT = os.path.dirname(os.path.dirname(os.path.abspath(__file__)))
props = [json.loads(l) for l in open(os.path.join(ROOT, "properties.jsonl"))]
ids = [p["id"] for p in props]
found = {i: [] for i in ids}
for f in sorted(glob.glob(os.path.join(ROOT, "rocq/theories/*.v"))):
    for m in re.finditer(r"^(?:Theorem|Corollary|Lemma) (C\d\d)_(\w+)", open(f).read(), re.M):
        found.setdefault(m[1], []).append("%s_%s" % (m[1], m[2]))

notes = json.load(open(os.path.join(ROOT, "tools/manifest_notes.json")))
claims = []
for i in ids:
    ths = found[i]
    note = notes.get(i, {}).get("note", "")
    status = notes.get(i, {}).get("status")
    bad = [t for t in ths if t.endswith("_refuted")]
    part = [t for t in ths if t.endswith("_partial")]
    if status is None:
        status = "partial" if (bad or part or not ths) else "proved"
    if bad and not note.startswith("REFUTED"):
        note = ("REFUTED as stated: see " + ", ".join(bad) + ". " + note).strip()
    if not ths:
        note = (note + " No theorem yet.").strip()
    claims.append({"property": i, "status": status, "theorems": ths, "note": note})
json.dump({"claims": claims}, open(os.path.join(ROOT, "MANIFEST.json"), "w"), indent=1)
for c in claims:
    print(c["property"], c["status"], len(c["theorems"]))

rows = ["| id | property | status | theorems | note |", "|----|----------|--------|----------|------|"]
for p, c in zip(props, claims):
    rows.append("| %s | %s | %s | %s | %s |" % (p["id"], p["title"], c["status"], ", ".join(c["theorems"]),
                                              c["note"].replace("|", "\\|")))
path = os.path.join(ROOT, "DESIGN.md")
text = open(path).read()
a, b = text.index("<!-- table -->"), text.index("<!-- /table -->")
open(path, "w").write(text[:a] + "<!-- table -->\n" + "\n".join(rows) + "\n" + text[b:])

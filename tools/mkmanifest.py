#!/usr/bin/env python3
"""Write MANIFEST.json and rocq/theories/Assumptions.v from the theorems named
C<nn>_... in rocq/theories/Props*.v and the notes below."""
import glob, json, os, re
root = os.path.dirname(os.path.dirname(os.path.abspath(__file__)))
NOTES = json.load(open(os.path.join(root, "tools", "notes.json")))
thms, mods = {}, []
proj = open(os.path.join(root, "rocq", "_CoqProject")).read()
for m in re.findall(r"theories/(Props\w*)\.v", proj):
    f = os.path.join(root, "rocq", "theories", m + ".v")
    mods.append(m)
    for n in re.findall(r"^\s*(?:Theorem|Corollary)\s+(C\d\d\w*)", open(f).read(), re.M):
        thms.setdefault(n[:3], []).append((m, n))
ids = [json.loads(l)["id"] for l in open(os.path.join(root, "properties.jsonl"))]
claims = []
for i in ids:
    ts = [n for _, n in thms.get(i, [])]
    note = NOTES.get(i, {})
    if not ts and "status" not in note:
        continue
    weak = any(n.endswith("_partial") or n.endswith("_refuted") for n in ts)
    claims.append({"property": i, "status": note.get("status", "partial" if weak else "proved"),
                   "theorems": ts, "note": note.get("note", "")})
assert set(thms) <= set(ids), set(thms) - set(ids)
with open(os.path.join(root, "MANIFEST.json"), "w") as f:
    f.write('{"claims": [\n' + ",\n".join(json.dumps(c) for c in claims) + "\n]}\n")
with open(os.path.join(root, "rocq", "theories", "Assumptions.v"), "w") as f:
    f.write("(** Generated by tools/mkmanifest.py: what every theorem rests on. *)\n")
    f.write("From Verif Require " + " ".join(mods) + ".\n")
    f.write("(** One term that contains all of them, since one pass over the library is enough. *)\n")
    f.write("Definition all_theorems :=\n  (0")
    for i in ids:
        for m, n in thms.get(i, []):
            f.write(",\n   @Verif.%s.%s" % (m, n))
    f.write(").\nPrint Assumptions all_theorems.\n")
print({c["property"]: (c["status"], len(c["theorems"])) for c in claims})

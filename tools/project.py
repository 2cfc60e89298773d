#!/usr/bin/env python3
"""Regenerate the file list of rocq/_CoqProject and MANIFEST.json.

Theorem names are read from theories/Props; statuses and notes from tools/notes.json."""
import glob, json, os, re
root = os.path.dirname(os.path.dirname(os.path.abspath(__file__)))
os.chdir(root)
files = sorted(glob.glob("rocq/theories/*/*.v"))
with open("rocq/_CoqProject", "w") as f:
    f.write("-Q theories Verif\n")
    for p in files:
        f.write(p[len("rocq/"):] + "\n")
thms = {}
for p in glob.glob("rocq/theories/Props/*.v"):
    for m in re.finditer(r"^\s*(?:Theorem|Corollary)\s+(C\d+)(_\w+)", open(p).read(), re.M):
        thms.setdefault(m.group(1), []).append(m.group(1) + m.group(2))
notes = json.load(open("tools/notes.json"))
props = [json.loads(l)["id"] for l in open("properties.jsonl")]
claims = []
for c in props:
    n = notes.get(c, {})
    t = sorted(thms.get(c, []))
    st = n.get("status", "proved" if t else "partial")
    claims.append({"property": c, "status": st, "theorems": t, "note": n.get("note", "" if t else "not proved yet")})
json.dump({"claims": claims}, open("MANIFEST.json", "w"), indent=1)
print(len(files), "files;", sum(len(v) for v in thms.values()), "theorems;", [c for c in props if c not in thms])

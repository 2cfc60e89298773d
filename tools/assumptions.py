#!/usr/bin/env python3
"""Write ASSUMPTIONS.md: the axioms Print Assumptions lists for every theorem of the manifest.

Run after a build; uses the compiled files of rocq/theories."""
import json, os, re, subprocess, glob, sys, tempfile
root = os.path.dirname(os.path.dirname(os.path.abspath(__file__)))
os.chdir(root)
claims = json.load(open("MANIFEST.json"))["claims"]
where = {}
for p in glob.glob("rocq/theories/Props/*.v"):
    for m in re.finditer(r"^\s*(?:Theorem|Corollary)\s+(C\d+_\w+)", open(p).read(), re.M):
        where[m.group(1)] = os.path.basename(p)[:-2]
# with --new only theorems that are not yet in ASSUMPTIONS.md are asked about
old, oldnames = {}, []
if "--new" in sys.argv:
    text = open("ASSUMPTIONS.md").read()
    oldnames = re.findall(r"^\* `([\w.]+)`", text, re.M)
    full = {a.split(".")[-1]: a for a in oldnames}
    for t, a in re.findall(r"^\| (C\d+_\w+) \| (.*) \|$", text, re.M):
        old[t] = [] if a.startswith("none") else [full[x] for x in a.split(", ")]
src = []
for c in claims:
    for t in c["theorems"]:
        if t in old:
            continue
        src.append("Goal True. idtac \"@@ %s\". Abort." % t)
        src.append("Print Assumptions Verif.Props.%s.%s." % (where[t], t))
mods = sorted({where[t] for c in claims for t in c["theorems"] if t not in old})
text = "".join("Require Verif.Props.%s.\n" % m for m in mods) + "\n".join(src) + "\n"
with tempfile.TemporaryDirectory() as d:
    f = os.path.join(d, "Axioms.v")
    open(f, "w").write(text)
    out = subprocess.run(["coqc", "-Q", "rocq/theories", "Verif", f], capture_output=True, text=True)
if out.returncode:
    raise SystemExit(out.stderr)
res, cur = dict(old), None
for line in out.stdout.splitlines():
    if line.startswith("@@ "):
        cur = line[3:].strip(); res[cur] = []
    elif cur is not None:
        m = re.match(r"^([A-Za-z_][\w.]*)\s*(:|$)", line)
        if m and m.group(1) not in ("Axioms", "Closed"):
            res[cur].append(m.group(1))
names = sorted({a for v in res.values() for a in v})
short = {a: a.split(".")[-1] for a in names}
with open("ASSUMPTIONS.md", "w") as f:
    f.write("# Axioms listed by Print Assumptions\n\nGenerated by tools/assumptions.py. Full names:\n\n")
    for a in names:
        f.write("* `%s`\n" % a)
    f.write("\n| theorem | axioms |\n|---|---|\n")
    for c in claims:
        for t in c["theorems"]:
            f.write("| %s | %s |\n" % (t, ", ".join(short[a] for a in sorted(res[t])) or "none (closed under the global context)"))
print(len(res), names)

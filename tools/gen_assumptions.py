#!/usr/bin/env python3
"""Print Assumptions of every theorem of MANIFEST.json -> ASSUMPTIONS.md (needs a finished build in rocq/).
With claims as arguments (C85 C86) only their theorems are asked again; the others are kept as listed."""
import json, os, re, subprocess, sys, tempfile
root = os.path.join(os.path.dirname(os.path.abspath(__file__)), "..")
th = os.path.join(root, "rocq", "theories")
claims = json.load(open(os.path.join(root, "MANIFEST.json")))["claims"]
where = {}
for f in sorted(os.listdir(th)):
    if f.startswith("Props") and f.endswith(".v"):
        for m in re.finditer(r"^(?:Theorem|Corollary)\s+(C\d+_\w+)", open(os.path.join(th, f)).read(), re.M): where[m[1]] = f[:-2]
names = [t for c in claims for t in c["theorems"]]
only = set(sys.argv[1:]); kept = {}
if only:
    g = None
    for l in open(os.path.join(root, "ASSUMPTIONS.md")):
        if l.startswith("## "): g = tuple(sorted(re.findall(r"`([^`]+)`", l)))
        elif l.startswith("- "): kept[l[2:].split()[0]] = g
    kept = {t: a for t, a in kept.items() if t in names and t.split("_")[0] not in only}
    names = [t for t in names if t not in kept]
mods = sorted(set(where[t] for t in names))
src = "".join("From Verif Require %s.\n" % m for m in mods)
for t in names: src += 'Goal True. idtac "@@ %s". Abort.\nPrint Assumptions %s.%s.\n' % (t, where[t], t)
d = tempfile.mkdtemp()
open(os.path.join(d, "a.v"), "w").write(src)
out = subprocess.run(["coqc", "-Q", th, "Verif", "a.v"], cwd=d, capture_output=True, text=True)
assert out.returncode == 0, out.stderr
groups = {}
for part in out.stdout.split("@@ ")[1:]:
    name, rest = part.split("\n", 1)
    ax = tuple(sorted(re.findall(r"^([\w.']+)\s*$|^([\w.']+) :", rest, re.M)))
    ax = tuple(sorted(set(a or b for a, b in ax) - {"Axioms"}))
    groups.setdefault(ax, []).append(name)
for t, a in kept.items(): groups.setdefault(a, []).append(t)
order = {t: i for i, t in enumerate(t for c in claims for t in c["theorems"])}
for ax in groups: groups[ax].sort(key=order.get)
with open(os.path.join(root, "ASSUMPTIONS.md"), "w") as f:
    f.write("# What Print Assumptions lists\n\nGenerated by tools/gen_assumptions.py from the built theories: every theorem of MANIFEST.json, grouped by the axioms it depends on. All axioms are the standard library's (real numbers and classical logic).\n")
    for ax in sorted(groups, key=len):
        f.write("\n## %s\n\n" % (", ".join("`%s`" % a for a in ax) if ax else "Closed under the global context (no axioms)"))
        for n in groups[ax]: f.write("- %s (%s.v)\n" % (n, where[n]))
print({k: len(v) for k, v in groups.items()})

#!/usr/bin/env python3
"""Fill the assumption table of DESIGN.md: runs Print Assumptions on every theorem of
MANIFEST.json against the compiled theories (build rocq/ first)."""
import json, os, re, subprocess, tempfile, glob
here = os.path.dirname(os.path.abspath(__file__))
root = os.path.join(here, "..")
th = os.path.join(root, "rocq", "theories")
where = {}
for f in sorted(glob.glob(os.path.join(th, "*.v"))):
    mod = os.path.basename(f)[:-2]
    for n in re.findall(r"^\s*(?:Theorem|Lemma)\s+([\w']+)", open(f).read(), re.M):
        where.setdefault(n, []).append(mod)
claims = json.load(open(os.path.join(root, "MANIFEST.json")))["claims"]
names = []
for c in claims:
    for t in c["theorems"]:
        if t not in names:
            names.append(t)
mods = sorted({m for t in names for m in where[t]})
src = "".join(f"From Verif Require {m}.\n" for m in mods)
for t in names:
    m = [x for x in where[t] if x.startswith("P_")] or where[t]
    src += f'Goal True. idtac "@@ {t}". Abort.\nPrint Assumptions {m[0]}.{t}.\n'
with tempfile.TemporaryDirectory() as d:
    p = os.path.join(d, "assum.v")
    open(p, "w").write(src)
    out = subprocess.run(["coqc", "-Q", th, "Verif", p], capture_output=True, text=True)
    if out.returncode:
        raise SystemExit(out.stderr)
short = {"ClassicalDedekindReals.sig_not_dec": "D", "ClassicalDedekindReals.sig_forall_dec": "F",
         "FunctionalExtensionality.functional_extensionality_dep": "E", "Classical_Prop.classic": "C"}
rows = {}
for block in out.stdout.split("@@ ")[1:]:
    t, rest = block.split("\n", 1)
    ax = re.findall(r"^([A-Za-z_][\w.']*)\s*(?::|$)", rest, re.M)
    ax = [a for a in ax if a not in ("Axioms", "Closed")]
    rows[t.strip()] = "".join(sorted(short.get(a, "[" + a + "]") for a in ax)) or "none"
groups = {}
for t in names:
    groups.setdefault(rows[t], []).append(t)
md = "| axioms | theorems |\n|---|---|\n"
for g in sorted(groups):
    md += f"| {g} | {', '.join('`'+t+'`' for t in groups[g])} |\n"
p = os.path.join(root, "DESIGN.md")
s = open(p).read()
a, b = "<!-- assumptions -->\n", "<!-- end assumptions -->\n"
if a in s:
    s = s[: s.index(a) + len(a)] + md + s[s.index(b):]
    open(p, "w").write(s)
print({g: len(v) for g, v in groups.items()})

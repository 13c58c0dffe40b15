#!/usr/bin/env python3
"""Runs Print Assumptions on every theorem named in MANIFEST.json (needs a finished build); writes ASSUMPTIONS.md."""
import glob, json, os, re, subprocess, collections
root = os.path.join(os.path.dirname(os.path.abspath(__file__)), "..")
names = [t for c in json.load(open(f"{root}/MANIFEST.json"))["claims"] for t in c["theorems"]]
where = {}
for f in sorted(glob.glob(f"{root}/rocq/theories/Prop*.v")):
    for m in re.finditer(r"^(?:Theorem|Corollary) (C\d\d\w*)", open(f).read(), re.M):
        where[m.group(1)] = os.path.basename(f)[:-2]
mods = sorted(set(where[n] for n in names))
src = "".join(f"From Verif Require {m}.\n" for m in mods)
src += "".join(f'Print Assumptions {where[n]}.{n}.\nCheck tt.\n' for n in names)
open("/tmp/pa_all.v", "w").write(src)
out = subprocess.run(["coqc", "-Q", f"{root}/rocq/theories", "Verif", "/tmp/pa_all.v"], capture_output=True, text=True)
assert out.returncode == 0, out.stderr
parts = re.split(r"^tt\n\s*: unit\n", out.stdout, flags=re.M)[:-1]
assert len(parts) == len(names), (len(parts), len(names))
groups = collections.OrderedDict()
for n, p in zip(names, parts):
    key = "Closed under the global context" if "Closed under" in p else ", ".join(sorted(re.findall(r"^([\w.]+) ?(?::|$)", p.replace("Axioms:\n", ""), re.M)))
    groups.setdefault(key, []).append(n)
with open(f"{root}/ASSUMPTIONS.md", "w") as f:
    f.write("# What Print Assumptions lists for each theorem\n\nGenerated by tools/assumptions.py.\n")
    for k, ns in groups.items():
        f.write(f"\n## {k}\n\n{len(ns)} theorems: " + ", ".join(f"`{n}`" for n in ns) + "\n")
for k, ns in groups.items(): print(len(ns), k)

#!/usr/bin/env python3
"""Print the table of axioms per theorem (run after building rocq): groups the theorems of
MANIFEST.json by the set of axioms that Print Assumptions lists."""
import json, re, glob, os, subprocess, collections
root = os.path.dirname(os.path.dirname(os.path.abspath(__file__)))
names = [t for c in json.load(open(root + "/MANIFEST.json"))["claims"] for t in c["theorems"]]
where = {}
for f in sorted(glob.glob(root + "/rocq/theories/Props/*.v")):
    for m in re.finditer(r"^(?:Theorem|Lemma|Corollary|Proposition)\s+(C\d+_\w+)", open(f).read(), re.M):
        where[m.group(1)] = os.path.basename(f)[:-2]
script = "".join("From Verif.Props Require %s.\n" % m for m in sorted(set(where.values())))
for n in names:
    script += 'Goal True. idtac "@@ %s". Abort.\nPrint Assumptions Verif.Props.%s.%s.\n' % (n, where[n], n)
open("/tmp/_axioms.v", "w").write(script)
out = subprocess.run("coqtop -Q theories Verif -batch -l /tmp/_axioms.v", shell=True, cwd=root + "/rocq",
                     stdout=subprocess.PIPE, stderr=subprocess.STDOUT, text=True).stdout
groups = collections.OrderedDict()
for chunk in out.split("@@ ")[1:]:
    name, body = chunk.split("\n", 1)
    ax = re.findall(r"^([A-Za-z_][\w.']*)\s*(?::|$)", body.split("Axioms:")[1], re.M) if "Axioms:" in body else []
    if "Axioms:" not in body and "Closed under" not in body: ax = ["?? " + body[:80]]
    groups.setdefault(tuple(sorted(set(ax))), []).append(name.strip())
for ax, ns in sorted(groups.items(), key=lambda g: len(g[0])):
    print("*", ", ".join("`%s`" % a for a in ax) if ax else "no axioms (closed under the global context)")
    print("  (%d): %s\n" % (len(ns), ", ".join(ns)))

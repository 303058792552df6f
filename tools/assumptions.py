"""Print Assumptions for every theorem named in MANIFEST.json, as a markdown table (needs a built tree)."""
import json, re, glob, subprocess, os
R = "/verif/rocq"
M = json.load(open("/verif/MANIFEST.json"))
where = {}
for f in glob.glob(R + "/theories/*.v"):
    for n in re.findall(r"^\s*(?:Theorem|Lemma|Corollary)\s+([\w']+)", open(f).read(), re.M):
        where.setdefault(n, []).append(os.path.basename(f)[:-2])
names = []
for c in M["claims"]:
    for n in c["theorems"]:
        if n not in names:
            names.append(n)
src = ""
for n in names:
    f = where[n][0]
    src += "From Verif Require %s.\n" % f
for n in names:
    src += 'Goal True. idtac "@@ %s". exact I. Qed.\nPrint Assumptions %s.%s.\n' % (n, where[n][0], n)
open("/tmp/as/As.v", "w").write(src)
out = subprocess.run(["coqc", "-Q", R + "/theories", "Verif", "/tmp/as/As.v"], capture_output=True, text=True)
assert out.returncode == 0, out.stderr[-2000:]
short = {"ClassicalDedekindReals.sig_not_dec": "N", "ClassicalDedekindReals.sig_forall_dec": "F",
         "FunctionalExtensionality.functional_extensionality_dep": "E", "Classical_Prop.classic": "C"}
groups = {}
for part in out.stdout.split("@@ ")[1:]:
    n, body = part.split("\n", 1)
    ax = re.findall(r"^([A-Za-z_][\w.']*)\s*$|^([A-Za-z_][\w.']*) :", body, re.M)
    ax = [a or b for a, b in ax if (a or b) != "Axioms"]
    for a in ax:
        assert a in short, a
    key = "".join(sorted(short[a] for a in ax)) or "-"
    if not ax: assert "Closed under" in body, body
    groups.setdefault(key, []).append(n.strip())
txt = ""
for k in sorted(groups):
    txt += "* **%s**: %s\n" % ({"-": "closed under the global context (no axiom)"}.get(k, " + ".join("`%s`" % {v: kk for kk, v in short.items()}.get(x, x) for x in k)),
                               ", ".join("`%s`" % x for x in groups[k]))
d = open("/verif/DESIGN.md").read()
a, b = "<!-- assumptions -->\n", "<!-- end assumptions -->"
if a in d:
    i, j = d.index(a) + len(a), d.index(b)
    open("/verif/DESIGN.md", "w").write(d[:i] + txt + d[j:])
else:
    print(txt)

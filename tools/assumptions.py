"""Write ASSUMPTIONS.md: what Print Assumptions lists for every theorem of MANIFEST.json (needs a finished build)."""
import collections, glob, json, os, re, subprocess, tempfile

root = os.path.dirname(os.path.dirname(os.path.abspath(__file__)))
names = [t for c in json.load(open(os.path.join(root, "MANIFEST.json")))["claims"] for t in c["theorems"]]
where = {}
for f in glob.glob(os.path.join(root, "rocq/theories/*Props.v")):
    for m in re.finditer(r"^Theorem (\w+)", open(f).read(), re.M):
        where[m.group(1)] = os.path.basename(f)[:-2]
found = collections.OrderedDict()
with tempfile.TemporaryDirectory() as d:
    for mod in sorted({where[n] for n in names}):
        mine = [n for n in names if where[n] == mod]
        open(os.path.join(d, "A.v"), "w").write("From Coq Require Import String.\nFrom Verif Require Import %s.\n" % mod +
            "".join('Check "@@%s"%%string. Print Assumptions %s.\n' % (n, n) for n in mine))
        out = subprocess.run(["coqc", "-Q", os.path.join(root, "rocq/theories"), "Verif", "A.v"], cwd=d, capture_output=True, text=True, check=True).stdout
        parts = re.split(r'"@@(\w+)"%string\s*: string', out)
        for n, text in zip(parts[1::2], parts[2::2]):
            found[n] = () if "Closed under the global context" in text else tuple(sorted(re.findall(r"(?m)^([A-Za-z][\w.]*)(?=\s*:|$)", text.replace("Axioms:", ""))))
groups = collections.defaultdict(list)
for n in names:
    groups[found[n]].append(n)
with open(os.path.join(root, "ASSUMPTIONS.md"), "w") as g:
    g.write("# Print Assumptions for every theorem of MANIFEST.json\n\nWritten by `tools/assumptions.py`.\n")
    for axs in sorted(groups, key=len):
        g.write("\n## %s (%d theorems)\n\n" % ("Closed under the global context" if not axs else "Axioms of the standard library: " + ", ".join("`%s`" % a for a in axs), len(groups[axs])))
        g.write(", ".join(groups[axs]) + "\n")
for axs in sorted(groups, key=len):
    print(len(groups[axs]), axs)

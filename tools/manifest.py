"""Write MANIFEST.json from the property theorems.

Theorems are collected from rocq/theories/*Props.v by their name prefix (C01_...).
Status: "partial" if NOTES says so, else "proved".
"""
import glob, json, os, re

root = os.path.dirname(os.path.dirname(os.path.abspath(__file__)))
notes = json.load(open(os.path.join(root, "tools", "notes.json")))
props = [json.loads(l)["id"] for l in open(os.path.join(root, "properties.jsonl"))]
thms = {}
for f in sorted(glob.glob(os.path.join(root, "rocq/theories/*Props.v"))):
    for m in re.finditer(r"^Theorem (C\d\d+)_(\w+)", open(f).read(), re.M):
        thms.setdefault(m.group(1), []).append(m.group(1) + "_" + m.group(2))
claims = []
for p in props:
    note = notes.get(p, {})
    note = {"note": note} if isinstance(note, str) else note
    names = thms.pop(p, [])
    if not names:
        if note.get("status") == "not_applicable":
            claims.append({"property": p, "status": "not_applicable", "theorems": [], "note": note.get("note", "")})
        continue
    claims.append({"property": p, "status": note.get("status", "proved"),
                   "theorems": names, "note": note.get("note", "")})
assert not thms, "theorems of unlisted properties: %s" % thms
json.dump({"claims": claims}, open(os.path.join(root, "MANIFEST.json"), "w"), indent=1)
print(len(claims), "claims;", "missing:", [p for p in props if p not in {c["property"] for c in claims}])

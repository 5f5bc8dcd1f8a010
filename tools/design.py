#!/usr/bin/env python3
"""Fill in the table of properties in DESIGN.md from the sources.

The table stands between the two marker lines. For every property it gives the
file with its theorems, the model files these use, the idea of the proof, and
the status and remarks of MANIFEST.json.
"""
import json
import os
import re

ROOT = os.path.dirname(os.path.dirname(os.path.abspath(__file__)))
TH = os.path.join(ROOT, "rocq", "theories")
BEGIN, END = "<!-- table begins -->", "<!-- table ends -->"
SUPPORT = {"Lib", "QcLib", "RLib"}

requires = {}
for name in os.listdir(TH):
    if name.endswith(".v"):
        text = open(os.path.join(TH, name)).read()
        deps = set()
        for m in re.finditer(r"From Verif Require (?:Import|Export) ([\w\s]+)\.", text):
            deps |= set(m.group(1).split())
        requires[name[:-2]] = deps


def is_model(f):
    return not f.endswith(("Props", "Proofs", "Spec")) and f not in SUPPORT


def models(props):
    """Model files of an area: the ones its theorem file names directly or
    through proof and specification files of the same area."""
    seen, todo, out = set(), [props], []
    stem = re.sub("Props$", "", props)
    while todo:
        for d in sorted(requires[todo.pop()]):
            if d not in seen:
                seen.add(d)
                if is_model(d):
                    out.append(d)
                elif d.endswith(("Proofs", "Spec")) and not d.startswith("Lib"):
                    todo.append(d)
    first = [f for f in out if f.startswith(stem)]
    return first + sorted(set(out) - set(first))


where = {}
for name in sorted(requires):
    if name.endswith("Props"):
        text = open(os.path.join(TH, name + ".v")).read()
        for m in re.finditer(r"^Theorem (C\d\d+)_", text, re.M):
            where.setdefault(m.group(1), [])
            if name not in where[m.group(1)]:
                where[m.group(1)].append(name)

ideas = json.load(open(os.path.join(ROOT, "tools", "proofs.json")))
claims = {c["property"]: c for c in
          json.load(open(os.path.join(ROOT, "MANIFEST.json")))["claims"]}
rows = ["| id | property | theorems in | model | proof | status | remarks |",
        "|----|----------|-------------|-------|-------|--------|---------|"]
for line in open(os.path.join(ROOT, "properties.jsonl")):
    if line.strip():
        p = json.loads(line)
        i = p["id"]
        c = claims.get(i, {"status": "open", "note": ""})
        ms = []
        for w in where.get(i, []):
            ms += [x for x in models(w) if x not in ms]
        rows.append("| %s | %s | %s | %s | %s | %s | %s |" % (
            i, p["title"].replace("|", "/"), ", ".join(where.get(i, [])),
            ", ".join(ms), ideas.get(i, ""), c["status"],
            c["note"].replace("|", "/").replace("\n", " ")))

path = os.path.join(ROOT, "DESIGN.md")
text = open(path).read()
a, b = text.index(BEGIN) + len(BEGIN), text.index(END)
open(path, "w").write(text[:a] + "\n" + "\n".join(rows) + "\n" + text[b:])
missing = [i for i in claims if i not in ideas]
if missing:
    print("no proof idea for", missing)

"""note.py ID [status] NOTE: add a note to notes.json."""
import json, os, sys
p = os.path.join(os.path.dirname(os.path.abspath(__file__)), "notes.json")
n = json.load(open(p))
a = sys.argv[1:]
n[a[0]] = {"status": a[1], "note": a[2]} if len(a) == 3 else {"note": a[1]}
json.dump(n, open(p, "w"), indent=1)

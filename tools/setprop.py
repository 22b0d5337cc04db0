"""Usage: setprop.py ID field text -- change one field of a property, or append a new property from JSON on stdin."""
import json, sys
P = "properties.jsonl"
rows = [json.loads(l) for l in open(P)]
if len(sys.argv) == 4:
    r = [x for x in rows if x["id"] == sys.argv[1]]
    assert len(r) == 1
    r[0][sys.argv[2]] = sys.argv[3]
else:
    n = json.load(sys.stdin)
    assert n["id"] not in [x["id"] for x in rows]
    rows.append(n)
with open(P, "w") as f:
    for x in rows:
        f.write(json.dumps(x) + "\n")

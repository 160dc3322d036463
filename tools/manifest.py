#!/usr/bin/env python3
"""Write MANIFEST.json from the theorem names in rocq/theories/*Props*.v and the
status table in tools/status.json ({"C01": ["proved", "note"], ...})."""
import glob, json, os, re
root = os.path.dirname(os.path.dirname(os.path.abspath(__file__)))
status = json.load(open(os.path.join(root, "tools/status.json")))
props = [json.loads(l) for l in open(os.path.join(root, "properties.jsonl")) if l.strip()]
thms = {}
for f in sorted(glob.glob(os.path.join(root, "rocq/theories/*Props*.v"))):
    for m in re.finditer(r"^Theorem\s+((C\d+)_\w+)", open(f).read(), re.M):
        thms.setdefault(m.group(2), []).append(m.group(1))
claims = []
for p in props:
    i = p["id"]
    if i in status and i in thms:
        s, note = status[i]
    elif i in status:
        s, note = status[i]
    else:
        if i in thms:
            print("no status for", i)
        continue
    claims.append({"property": i, "status": s, "theorems": thms.get(i, []), "note": note})
json.dump({"claims": claims}, open(os.path.join(root, "MANIFEST.json"), "w"), indent=1, ensure_ascii=False)
print(len(claims), "claims,", sum(len(c["theorems"]) for c in claims), "theorems; missing:",
      [p["id"] for p in props if p["id"] not in status])

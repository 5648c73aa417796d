"""Write MANIFEST.json from the theorem names in rocq/theories/Prop*.v.

A property is partial if one of its theorems is named _partial or _refuted."""
import glob, json, os, re

root = os.path.join(os.path.dirname(os.path.abspath(__file__)), "..")
notes = json.load(open(os.path.join(root, "tools", "notes.json")))
names = {}
for path in sorted(glob.glob(os.path.join(root, "rocq/theories/Prop*.v"))):
    for name in re.findall(r"^Theorem (\w+)", open(path).read(), re.M):
        names.setdefault(name[:3], []).append(name)
claims = []
for line in open(os.path.join(root, "properties.jsonl")):
    key = json.loads(line)["id"]
    if key not in names:
        continue
    weak = any(n.endswith(("_partial", "_refuted")) for n in names[key])
    claims.append({
        "property": key,
        "status": "partial" if weak else "proved",
        "theorems": names[key],
        "note": notes.get(key, ""),
    })
json.dump({"claims": claims}, open(os.path.join(root, "MANIFEST.json"), "w"), indent=1)
print(len(claims), "claims", sum(len(c["theorems"]) for c in claims), "theorems")

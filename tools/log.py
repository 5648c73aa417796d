"""Turn the results of mutate.py into lines of seeded/LOG.jsonl.

usage: log.py RESULTS.jsonl ... > seeded/LOG.jsonl

Later results of a mutation replace earlier ones.  A mutation may say in
[tightened] which theorems were tightened because of it, and in [relabelled] why
the claims it was first said to break were corrected after the run.
"""
import json, sys

results = {}
for path in sys.argv[1:]:
    for line in open(path):
        r = json.loads(line)
        results[r["id"]] = r
for ident in sorted(results):
    r = results[ident]
    failed = r.get("failed", [])
    out = {
        "id": ident,
        "definition": f"{r['file']}.{r['definition']}",
        "edit": r["edit"],
        "replaced": r["edits"],
        "claims": r["claims"],
        "failed": failed,
        "tightened": r.get("tightened", []),
    }
    survived = [c for c in r["claims"] if not any(t.split("_")[0] == c for t in failed)]
    if "error" in r:
        out["note"] = "does not build: " + r["error"].replace("\n", " ")[:300]
    elif survived:
        out["note"] = "not noticed by " + ", ".join(survived)
    elif r.get("relabelled"):
        out["note"] = r["relabelled"]
    elif not r["claims"]:
        out["note"] = r.get("note", "breaks no claim")
    print(json.dumps(out, ensure_ascii=False))

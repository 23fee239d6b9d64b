"""append the outcome of a seed.py run to seeded/LOG.jsonl: seedlog.py OUT.jsonl [TIGHTENED.json]"""
import json, sys
T = json.load(open(sys.argv[2])) if len(sys.argv) > 2 else {}
with open("/verif/seeded/LOG.jsonl", "a") as f:
    for l in open(sys.argv[1]):
        r = json.loads(l)
        t = T.get(r["id"], {})
        d = {"id": r["id"], "definition": f"{r['file']}.{r['definition']}", "edit": {"old": r["old"], "new": r["new"]},
             "bug": r["why"], "claims_broken": r["breaks"], "theorems_failed": r["broken"],
             "not_caught": t.get("missed", r["missed"]), "theorems_tightened": t.get("tightened", [])}
        if t.get("note"): d["note"] = t["note"]
        f.write(json.dumps(d) + "\n")

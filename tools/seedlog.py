#!/usr/bin/env python3
"""Turns the records of a mutation run into lines of seeded/LOG.jsonl.

usage: seedlog.py RESULTS.jsonl OVERRIDES.json > LOG.jsonl
A record lists the proofs at which checking stopped after the edit ("stopped at")
and every theorem with a Print Assumptions line that then depends on one of them.
ConformanceRun is left out of "stopped at": it takes 80 s unedited, and on a loaded
machine it ran into the 120 s limit of the runner after unrelated edits."""
import json, re, sys
props = {json.loads(l)["id"]: json.loads(l)["title"] for l in open("/verif/properties.jsonl")}
over = json.load(open(sys.argv[2]))
recs = {}
for l in open(sys.argv[1]):
    r = json.loads(l)
    if "error" not in r:
        recs[r["id"]] = r
for k in sorted(recs):
    r = recs[k]
    o = over.get(k, {})
    ids = o.get("claim", r["claim"])
    claim = "; ".join(f"{c} ({props[c]})" for c in re.findall(r"C\d+", ids))
    own = [n for _, n in r["failed"] if re.match(r"C\d\d", n)]
    failed = sorted(set(own) | set(r["broken"]))
    line = {"id": k, "definition": f"{r['file']}.{r['definition']}", "edit": r["edit"], "claim": claim,
            "failed": failed, "stopped_at": [f"{f}.{n}" for f, n in r["failed"] if f != "ConformanceRun"],
            "tightened": o.get("tightened", [])}
    if "note" in o:
        line["note"] = o["note"]
    print(json.dumps(line))

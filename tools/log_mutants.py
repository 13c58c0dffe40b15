#!/usr/bin/env python3
"""Appends the results of a round of seeded bugs (scratch copy outside /verif) to seeded/LOG.jsonl."""
import json, sys, os
root = os.path.join(os.path.dirname(os.path.abspath(__file__)), "..")
tight = json.loads(sys.argv[2]) if len(sys.argv) > 2 else {}
with open(os.path.join(root, "seeded", "LOG.jsonl"), "a") as out:
    for l in open(sys.argv[1]):
        r = json.loads(l)
        rec = dict(definition=f"{r['file']}:{r['definition']}", edit=r["edit"], change={"old": r["key"].split("|", 1)[1][:400]}, claim_broken=r["claim"],
                   theorems_failed=sorted(set(r["failed_at"])), property_theorems_no_longer_proved=r["blocked"], theorems_tightened=tight.get(r["edit"], []))
        out.write(json.dumps(rec) + "\n")

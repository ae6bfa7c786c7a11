#!/usr/bin/env python3
"""Write seeded/LOG.jsonl from the result lines of tools/mutate.py and seeded/notes.json.

usage: mutlog.py RESULTS...   (later results of the same mutant are further lines of the log)
A theorem counts as failed when its own proof or that of a lemma it rests on no longer
goes through; the lemma at which it failed is logged, because a failing lemma about the
edited definition does not show that the theorem itself is false of the edited program.
"""
import json, sys, os
here = os.path.dirname(os.path.abspath(__file__))
root = os.path.dirname(here)
notes = json.load(open(os.path.join(root, "seeded/notes.json")))
out = []
for fn in sys.argv[1:]:
    for line in open(fn):
        if not line.strip():
            continue
        d = json.loads(line)
        n = notes.get(d["name"], {})
        out.append({"mutant": d["name"], "definition": d["file"], "edit": d["edit"], "claim": d["claim"],
                    "failed": d["failed"], "claimed_but_survived": d["suspicious"],
                    "tightened": n.get("tightened", []), "note": n.get("note", "")})
seen = {d["mutant"] for d in out}
for k, n in notes.items():
    if k not in seen and "definition" in n:
        out.append({"mutant": k, **n})
with open(os.path.join(root, "seeded/LOG.jsonl"), "w") as f:
    for d in out:
        f.write(json.dumps(d) + "\n")
print(len(out))
for d in out:
    if d.get("claimed_but_survived") and not d.get("note"):
        print("no note:", d["mutant"], d["claimed_but_survived"])

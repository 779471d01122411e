#!/usr/bin/env python3
"""Every anchor of properties.jsonl must name a file of /repo and a symbol that occurs in it."""
import json, os, re
bad = 0
for l in open(os.path.join(os.path.dirname(os.path.abspath(__file__)), "../properties.jsonl")):
    q = json.loads(l)
    for a in q["anchors"]:
        f, _, s = a.partition(":")
        try:
            t = open("/repo/" + f).read()
        except OSError:
            print(q["id"], a, "no file"); bad += 1; continue
        for part in s.split("."):
            if part and not re.search(r"\b%s\b" % re.escape(part), t):
                print(q["id"], a, "no symbol", part); bad += 1
print("bad:", bad)

#!/usr/bin/env python3
"""Writes MANIFEST.json: theorem names are collected from rocq/theories/Props/*.v
(a theorem named C07_x or C13_C14_x belongs to C07, respectively C13 and C14),
statuses and notes from tools/status.json."""
import glob, json, os, re
root = os.path.dirname(os.path.dirname(os.path.abspath(__file__)))
thms = {}
for f in sorted(glob.glob(root + "/rocq/theories/Props/*.v")):
    for m in re.finditer(r"^\s*Theorem\s+((?:C\d\d+_)+\w+)", open(f).read(), re.M):
        name = m.group(1)
        for c in re.findall(r"C\d\d+(?=_)", re.match(r"(?:C\d\d+_)+", name).group(0)):
            thms.setdefault(c, []).append(name)
status = json.load(open(root + "/tools/status.json"))
claims = []
for line in open(root + "/properties.jsonl"):
    c = json.loads(line)["id"]
    if c not in thms:
        continue
    st = status.get(c, {})
    s = st.get("status")
    if s is None:
        s = "partial" if any(n.endswith(("_partial",)) for n in thms[c]) else "proved"
    claims.append({"property": c, "status": s, "theorems": thms[c], "note": st.get("note", "")})
json.dump({"claims": claims}, open(root + "/MANIFEST.json", "w"), indent=1)
print({s: sum(c["status"] == s for c in claims) for s in ("proved", "partial", "not_applicable")},
      sum(len(c["theorems"]) for c in claims))

"""Regenerate MANIFEST.json from the table below (run in /verif)."""
import json, re, glob
ids = [json.loads(l)["id"] for l in open("properties.jsonl")]
names = set()
for f in glob.glob("rocq/theories/Props_*.v"):
    names |= set(re.findall(r"^Theorem (\w+)", open(f).read(), re.M))
notes = json.load(open("tools/notes.json"))
claims = []
for i in ids:
    ths = sorted(n for n in names if n.startswith(i + "_"))
    n = notes.get(i, {})
    status = n.get("status", "partial")
    if not ths and status != "not_applicable":
        continue
    claims.append({"property": i, "status": status, "theorems": ths, "note": n.get("note", "")})
json.dump({"claims": claims}, open("MANIFEST.json", "w"), indent=1)
print(len(claims), "claims;", sorted(set(ids) - {c["property"] for c in claims}), "open")

"""Regenerate MANIFEST.json from the theorem names in rocq/theories/P_*.v and tools/notes.json."""
import glob, json, os, re
root = os.path.dirname(os.path.dirname(os.path.abspath(__file__)))
names = {}
for f in sorted(glob.glob(root + "/rocq/theories/P_*.v")):
    for m in re.finditer(r"^Theorem\s+(C\d\d)(_\w+)", open(f).read(), re.M):
        names.setdefault(m.group(1), []).append(m.group(1) + m.group(2))
notes = json.load(open(root + "/tools/notes.json"))
claims = []
for line in open(root + "/properties.jsonl"):
    i = json.loads(line)["id"]
    th = names.get(i, [])
    n = notes.get(i, {})
    if not th:
        continue
    status = n.get("status") or ("partial" if any(t.endswith("_partial") for t in th) else "proved")
    claims.append({"property": i, "status": status, "theorems": th, "note": n.get("note", "")})
json.dump({"claims": claims}, open(root + "/MANIFEST.json", "w"), indent=1)
print(len(claims), sum(len(c["theorems"]) for c in claims))

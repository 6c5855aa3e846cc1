"""Writes MANIFEST.json: the theorems are collected from rocq/theories/P_*.v by
their prefix, status and note come from the table scripts/claims.json."""
import json, re, glob, os
root = os.path.dirname(os.path.dirname(os.path.abspath(__file__)))
table = json.load(open(os.path.join(root, "scripts", "claims.json")))
names = []
for f in sorted(glob.glob(os.path.join(root, "rocq", "theories", "P_*.v"))):
    for m in re.finditer(r"^Theorem\s+(\w+)", open(f).read(), re.M):
        names.append(m.group(1))
claims = []
for pid, (status, note) in sorted(table.items()):
    th = [n for n in names if n.startswith(pid + "_")]
    if status != "not_applicable" and not th:
        raise SystemExit("no theorem for " + pid)
    claims.append({"property": pid, "status": status, "theorems": th, "note": note})
left = [n for n in names if n.split("_")[0] not in table]
if left:
    raise SystemExit("unclaimed theorems: %s" % left)
json.dump({"claims": claims}, open(os.path.join(root, "MANIFEST.json"), "w"), indent=1)

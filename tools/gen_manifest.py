"""Regenerate MANIFEST.json from properties.jsonl, the theorem names in rocq/theories and notes.json."""
import glob, json, os, re

root = os.path.join(os.path.dirname(os.path.abspath(__file__)), "..")
props = [json.loads(l) for l in open(os.path.join(root, "properties.jsonl")) if l.strip()]
notes = json.load(open(os.path.join(root, "tools", "notes.json")))
names = []
for f in sorted(glob.glob(os.path.join(root, "rocq", "theories", "*.v"))):
    names += re.findall(r"^(?:Theorem|Lemma|Corollary)\s+(C\d+_\w+)", open(f).read(), re.M)
claims = []
for p in props:
    i = p["id"]
    th = [n for n in names if n.startswith(i + "_")]
    note = notes.get(i, "")
    if not th:
        status = "not_applicable"
        note = note or "not modelled yet"
    elif any(n.endswith("_refuted") or n.endswith("_partial") for n in th):
        status = "partial"
    else:
        status = "proved"
    claims.append({"property": i, "status": status, "theorems": th, "note": note})
json.dump({"claims": claims}, open(os.path.join(root, "MANIFEST.json"), "w"), indent=1)
print({s: sum(c["status"] == s for c in claims) for s in ("proved", "partial", "not_applicable")})

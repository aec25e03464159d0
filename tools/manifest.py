"""Regenerates MANIFEST.json from the Prop*.v files and tools/notes.json."""
import json, re, glob, os
root = os.path.dirname(os.path.dirname(os.path.abspath(__file__)))
props = [json.loads(l) for l in open(f"{root}/properties.jsonl") if l.strip()]
notes = json.load(open(f"{root}/tools/notes.json"))
thms = {}
for f in sorted(glob.glob(f"{root}/rocq/theories/Prop*.v")):
    for m in re.finditer(r"^Theorem\s+(C\d+)_(\w+)", open(f).read(), re.M):
        thms.setdefault(m[1], []).append(f"{m[1]}_{m[2]}")
claims = []
for p in props:
    i = p["id"]
    t = thms.get(i, [])
    n = notes.get(i, {})
    st = n.get("status") or ("partial" if (not t or any(x.endswith("_partial") for x in t)) else "proved")
    note = n.get("note", "")
    ref = [x for x in t if x.endswith("_refuted")]
    if ref and "refuted" not in note.lower():
        note = (note + " The stronger reading is refuted by " + ", ".join(ref) + ".").strip()
    if not t and not note:
        note = "not yet proved"
    claims.append({"property": i, "status": st, "theorems": t, "note": note})
ids = {p["id"] for p in props}
for i in thms:
    assert i in ids, i
json.dump({"claims": claims}, open(f"{root}/MANIFEST.json", "w"), indent=1)
print({s: sum(c["status"] == s for c in claims) for s in ("proved", "partial", "not_applicable")}, [c["property"] for c in claims if not c["theorems"]])

import json,re,glob
thms={}
for f in sorted(glob.glob("/verif/rocq/theories/Props*.v")):
    for n in re.findall(r"^Theorem (C\d+_\w+)",open(f).read(),flags=re.M):
        thms.setdefault(n.split("_")[0],[]).append(n)
notes=json.load(open("/verif/tools/notes.json"))
claims=[]
for line in open("/verif/properties.jsonl"):
    i=json.loads(line)["id"]
    t=thms.get(i,[]); st,note=notes.get(i,[None,""])
    if st is None: st="proved" if t and not any(x.endswith("_partial") or x.endswith("_refuted") for x in t) else "partial"
    if not t: st="partial"; note=note or "Not yet proved: planned, see DESIGN.md."
    claims.append(dict(property=i,status=st,theorems=t,note=note))
json.dump({"claims":claims},open("/verif/MANIFEST.json","w"),indent=1)
print({s:sum(c["status"]==s and bool(c["theorems"]) for c in claims) for s in ("proved","partial")}, "unproved:",[c["property"] for c in claims if not c["theorems"]])

"""DESIGN.md from tools/design_head.md, the manifest and tools/assumptions.md (python3 tools/assumptions.py > tools/assumptions.md)."""
import json,re,os
T="/verif/rocq/theories"
m={c["property"]:c for c in json.load(open("/verif/MANIFEST.json"))["claims"]}
where={}
for f in sorted(os.listdir(T)):
    if f.startswith("Props_") and f.endswith(".v"):
        for n in re.findall(r"^Theorem (\w+)",open(f"{T}/{f}").read(),re.M): where[n]=f[:-2]
out=open("/verif/tools/design_head.md").read()
rows=["| id | property | status | theorems (file) | scope, or what is false |","|---|---|---|---|---|"]
for l in open("/verif/properties.jsonl"):
    p=json.loads(l); c=m[p["id"]]
    fs=sorted({where.get(t,"?") for t in c["theorems"]})
    rows.append("| %s | %s | %s | %s (%s) | %s |"%(p["id"],p["title"],c["status"],", ".join("`%s`"%t for t in c["theorems"]),", ".join(fs),c["note"]))
out=out.replace("@@PROPERTIES@@","\n".join(rows)).replace("@@ASSUMPTIONS@@",open("/verif/tools/assumptions.md").read().rstrip())
open("/verif/DESIGN.md","w").write(out)

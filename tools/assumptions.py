"""Print Assumptions of every theorem of the Props files, grouped (for DESIGN.md)."""
import re,subprocess,os,collections
T="/verif/rocq"
g=collections.OrderedDict()
for f in sorted(os.listdir(T+"/theories")):
    if not re.match(r"Props_\w+\.v$",f): continue
    src=open(f"{T}/theories/{f}").read()
    names=re.findall(r"^Print Assumptions (\w+)\.",src,re.M)
    if not names: continue
    out=subprocess.run(["coqc","-w","none","-Q","theories","Verif","-o",f"/tmp/pa/{f}o",f"theories/{f}"],cwd=T,capture_output=True,text=True).stdout
    blocks=re.split(r"^(?=Axioms:|Closed under)",out,flags=re.M)[1:]
    assert len(blocks)==len(names),(f,len(blocks),len(names))
    for n,b in zip(names,blocks):
        ax=tuple(sorted(re.findall(r"^([A-Za-z_][\w\.\']*)\s*(?::|$)",b.replace("Axioms:\n",""),re.M))) if b.startswith("Axioms") else ()
        g.setdefault(ax,[]).append(n)
for ax,ns in g.items():
    print("- "+(", ".join("`%s`"%a for a in ax) if ax else "nothing (\"Closed under the global context\")")+":")
    print("  "+", ".join(sorted(set(ns))))

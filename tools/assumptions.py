#!/usr/bin/env python3
"""Rewrites section 4 of DESIGN.md from the output of Print Assumptions (run after building rocq/)."""
import os, re, subprocess, tempfile
R=os.path.join(os.path.dirname(os.path.abspath(__file__)),"..")
T=os.path.join(R,"rocq","theories")
props=sorted(f[:-2] for f in os.listdir(T) if re.match(r"Prop\w+\.v$",f))
src="".join(f"Require Verif.{f}.\n" for f in props); n=0
for f in props:
    for m in re.finditer(r"^Theorem (C\d\d\w*)",open(f"{T}/{f}.v").read(),re.M):
        src+=f'Goal True. idtac "@@{m[1]}". Abort.\nPrint Assumptions Verif.{f}.{m[1]}.\n'; n+=1
with tempfile.TemporaryDirectory() as d:
    open(d+"/chk.v","w").write(src)
    out=subprocess.run(["coqc","-Q",T,"Verif",d+"/chk.v"],capture_output=True,text=True).stdout
parts=re.split(r"@@(C\d\d\w*)\n",out)
res=dict(zip(parts[1::2],(b.strip() for b in parts[2::2])))
assert len(res)==n,(len(res),n)
by={}
for k,v in res.items(): by.setdefault(v,[]).append(k)
s=open(R+"/DESIGN.md").read(); s=s.split("## 4. Print Assumptions")[0].rstrip()+"\n\n"
s+="## 4. Print Assumptions\n\nGenerated by `tools/assumptions.py` from the compiled files.\n"
for v,ks in by.items():
    g={}
    for k in sorted(ks): g.setdefault(k.split('_')[0],[]).append(k)
    s+=f"\n**{v}** ({len(ks)} theorems):\n\n"+"".join(f"* {', '.join('`'+x+'`' for x in xs)}\n" for _,xs in sorted(g.items(),key=lambda x:int(x[0][1:])))
open(R+"/DESIGN.md","w").write(s)
print(n,{v:len(k) for v,k in by.items()})

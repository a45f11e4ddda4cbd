"""Split a combined file X into XProofs.v (lemmas) and PropsX.v (theorems, examples)."""
import re,sys
src,proofs,props,header=sys.argv[1:5]
s=open(src).read()
# header: up to first blank line after last Local Open Scope
m=list(re.finditer(r"^(From|Import|Local Open Scope).*$",s,flags=re.M))
hend=m[-1].end()
head=s[:hend]; body=s[hend:]
title=re.match(r"\(\*\*.*?\*\)\n",head,flags=re.S).group(0); imports=head[len(title):]
blocks=re.split(r"\n\n+",body)
P=[];Q=[]
# finer: split into sentences groups
items=re.split(r"(?m)^(?=(?:\(\*\*|Lemma|Theorem|Example|Definition|Inductive|Fixpoint|Print|Ltac|Global))",body)
pend=[]
for it in items:
    if it.startswith("(**"): pend.append(it); continue
    if re.match(r"Theorem|Print|Example C\d\d",it):
        Q+=pend+[it]
    else: P+=pend+[it]
    pend=[]
open(proofs,"w").write(title.replace("Properties","Proofs of properties")+imports+"\n\n"+"".join(P).strip()+"\n")
mod=re.sub(r".*/|\.v$","",proofs)
imp2=re.sub(r"(From Verif Require Import [^.]*)\.",r"\1 "+mod+".",imports)
open(props,"w").write(title+imp2+"\n\n"+"".join(Q).strip()+"\n")

#!/usr/bin/env python3
"""Mutation testing of the theorems.

usage: seed.py MUTATIONS.json   (a list of {def, file, old, new, claim, expect})

For each mutation: copy /verif/rocq to a scratch directory, apply the edit to the
model, rebuild.  A proof that no longer goes through is replaced by Admitted in the
scratch copy, and the build goes on; the property theorems whose Print Assumptions
then lists such a lemma are the theorems that failed.  With "targets" (a list of
Props files) only these are rebuilt and checked.
"""
import json,os,re,shutil,subprocess,sys
from concurrent.futures import ThreadPoolExecutor
STD=("ClassicalDedekindReals","FunctionalExtensionality","Classical_Prop","Eqdep","ProofIrrelevance","functional_extensionality","sig_","classic","JMeq")
START=re.compile(r'^\s*(?:Local |Global |#\[[^\]]*\] ?)*(Lemma|Theorem|Example|Corollary|Fact|Instance|Proposition|Remark)\s+([A-Za-z0-9_\']+)')
def run(m,idx):
    d=f"/tmp/seed/{os.getpid()}_{idx}"
    if os.path.exists(d): shutil.rmtree(d)
    subprocess.run(["cp","-a",BASE,d],check=True)
    th=d+"/theories/"
    for f in os.listdir(th):
        if f.endswith(".v"):
            p=th+f; st=os.stat(p); s=open(p).read()
            open(p,"w").write("Set Default Timeout 100. "+s); os.utime(p,(st.st_atime,st.st_mtime))
    p=th+m["file"]; s=open(p).read()
    if s.count(m["old"])<1: return dict(m,error="old text not found")
    if s.count(m["old"])>1 and not m.get("nth") and not m.get("all"): return dict(m,error="old text not unique")
    if m.get("all"): s=s.replace(m["old"],m["new"])
    elif m.get("nth"):
        i=-1
        for _ in range(m["nth"]): i=s.index(m["old"],i+1)
        s=s[:i]+m["new"]+s[i+len(m["old"]):]
    else: s=s.replace(m["old"],m["new"])
    open(p,"w").write(s)
    subprocess.run("coq_makefile -f _CoqProject -o Makefile",shell=True,cwd=d,stdout=subprocess.DEVNULL)
    admitted=[]
    for _ in range(400):
        r=subprocess.run("ulimit -v 8000000; make -j1 "+" ".join("theories/%s.vo"%t for t in m.get("targets",[])),shell=True,cwd=d,stdout=subprocess.PIPE,stderr=subprocess.STDOUT,text=True)
        if r.returncode==0: break
        mm=None
        for mm in re.finditer(r'File "\./theories/(\S+)\.v", line (\d+)(?:, characters \d+-\d+)?:\s*\nError',r.stdout): pass
        if not mm: 
            return dict(m,error="build failed: "+r.stdout[-500:])
        f,line=mm.group(1),int(mm.group(2))
        if f+".v"==m["file"]: return dict(m,error="mutated model does not compile: "+r.stdout[-800:])
        L=open(th+f+".v").read().split("\n")
        k=line-1
        while k>=0 and not START.match(L[k]): k-=1
        if k<0: return dict(m,error=f"{f}:{line} not in a lemma: "+r.stdout[-500:])
        name=START.match(L[k]).group(2)
        # find Proof ... Qed
        txt="\n".join(L); off=sum(len(x)+1 for x in L[:k])
        q=re.compile(r'\bProof\b.*?\b(Qed|Defined)\.',re.S).search(txt,off)
        if not q: return dict(m,error=f"{f}:{line} no proof: "+r.stdout[-500:])
        endline=txt.count("\n",0,q.end())+1
        stmt_end=txt.count("\n",0,q.start())+1
        if line>endline: return dict(m,error=f"{f}:{line} outside {name}: "+r.stdout[-500:])
        if (f,name) in admitted: return dict(m,error=f"{f}:{line} statement of {name} broken: "+r.stdout[-500:])
        keep="\n"*(txt.count("\n",q.start(),q.end()))
        txt=txt[:q.start()]+"Proof. Admitted."+keep+txt[q.end():]
        open(th+f+".v","w").write(txt); admitted.append((f,name))
    failed=[]
    for f in sorted(os.listdir(th)):
        if not(f.startswith("Props") and f.endswith(".v")): continue
        if m.get("targets") and f[:-2] not in m["targets"]: continue
        src=open(th+f).read()
        failed+= [n for (ff,n) in admitted if ff+".v"==f and re.match(r'C\d\d',n)]
        names=re.findall(r'Print Assumptions ([A-Za-z0-9_\']+)\.',src)
        out=subprocess.run(["coqc","-Q","theories","Verif","theories/"+f],cwd=d,stdout=subprocess.PIPE,stderr=subprocess.STDOUT,text=True).stdout
        blocks=re.split(r'^(?=Axioms:|Closed under)',out,flags=re.M)
        blocks=[b for b in blocks if b.startswith(("Axioms:","Closed"))]
        if len(blocks)!=len(names): return dict(m,error=f"{f}: {len(blocks)} blocks, {len(names)} names "+out[-300:])
        for n,b in zip(names,blocks):
            ax=re.findall(r'^([A-Za-z0-9_\'.]+)\s*:',b[8:] if b.startswith("Axioms:") else "",flags=re.M)+re.findall(r'^([A-Za-z0-9_\'.]+)$',b[8:],flags=re.M)
            if any(not a.startswith(STD) for a in ax) and n not in failed: failed.append(n)
    shutil.rmtree(d)
    return dict(m,failed=failed,lemmas=[n for _,n in admitted])
if __name__=="__main__":
    ms=json.load(open(sys.argv[1]))
    os.makedirs("/tmp/seed",exist_ok=True)
    BASE=f"/tmp/seed/base_{os.getpid()}"
    subprocess.run(["cp","-a","/verif/rocq",BASE],check=True)
    w=int(os.environ.get("W","3"))
    with ThreadPoolExecutor(w) as ex:
        for r in ex.map(lambda x: run(x[1],x[0]),enumerate(ms)):
            if "error" in r: print("ERROR",r["def"],r["error"]); continue
            exp=r.get("expect",[]); hit=[e for e in exp if any(t.startswith(e) for t in r["failed"])]
            miss=[e for e in exp if e not in hit]
            print(("OK " if not miss and r["failed"] else "WEAK ")+r["def"],"| failed:",r["failed"],"| missed:",miss,"| lemmas:",r["lemmas"][:8],flush=True)
            with open("/verif/seeded/LOG.jsonl","a") as f:
                f.write(json.dumps({"definition":r["file"]+":"+r["def"],"edit":f"{r['old']}  =>  {r['new']}","claim_broken":r["claim"],"theorems_failed":r["failed"],"theorems_tightened":r.get("tightened",[]),**({"missed":miss} if miss else {})})+"\n")
    shutil.rmtree(BASE)

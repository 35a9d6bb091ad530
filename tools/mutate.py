#!/usr/bin/env python3
"""Seeded-bug experiments.  usage: mutate.py BATCH.json   (run anywhere)
Each entry: {"file":..,"def":..,"old":..,"new":..,"claim":..,"tightened":[..]}.
Copies /verif/rocq to a scratch directory, applies one edit, rebuilds with make -k,
and appends a line to /verif/seeded/LOG.jsonl."""
import json,os,re,shutil,subprocess,sys,glob
SRC="/verif/rocq"
def theorems(f):
    return re.findall(r"^\s*(?:Theorem|Corollary)\s+(\w+)",open(f).read(),re.M)
def main():
    batch=json.load(open(sys.argv[1]))
    work="/tmp/mut_%d"%os.getpid()
    for m in batch:
        if os.path.exists(work): shutil.rmtree(work)
        subprocess.run(["cp","-a",SRC,work],check=True)
        p=f"{work}/theories/{m['file']}.v"; s=open(p).read()
        if s.count(m["old"])<1: print("NOT FOUND",m["def"],m["old"]); continue
        if s.count(m["old"])>1 and not m.get("nth"): print("AMBIGUOUS",m["def"],m["old"],s.count(m["old"])); continue
        if m.get("nth"):
            parts=s.split(m["old"]); k=m["nth"]
            s=m["old"].join(parts[:k])+m["new"]+m["old"].join(parts[k:])
        else: s=s.replace(m["old"],m["new"])
        open(p,"w").write(s)
        subprocess.run("coq_makefile -f _CoqProject -o Makefile >/dev/null 2>&1",shell=True,cwd=work)
        try:
            r=subprocess.run("timeout 1500 make -k -j2 2>&1",shell=True,cwd=work,capture_output=True,text=True)
            out=r.stdout
        except Exception as e: out=str(e)
        errs=re.findall(r'File "\./theories/(\w+)\.v", line (\d+)[^\n]*\nError',out)
        built={os.path.basename(f)[:-3] for f in glob.glob(work+"/theories/*.vo")}
        # stale vo files are those older than a failed dependency: make -k does not rebuild them
        failed=[]
        bad={e[0] for e in errs}
        deps={}
        for f in glob.glob(work+"/theories/*.v"):
            t=open(f).read(); n=os.path.basename(f)[:-2]
            deps[n]=set(x for l in re.findall(r"From Verif Require (?:Import|Export)?([^.]*)\.",t) for x in l.split())
        ch=True
        while ch:
            ch=False
            for n,d in deps.items():
                if n not in bad and d&bad: bad.add(n); ch=True
        for n in sorted(bad):
            if n.endswith(("Prop","Main")):
                f=f"{work}/theories/{n}.v"; th=theorems(f)
                e=[int(x[1]) for x in errs if x[0]==n]
                if e and not (deps[n]&bad):
                    lines=open(f).read().split("\n")[:e[0]]
                    done=re.findall(r"^\s*(?:Theorem|Corollary|Example)\s+(\w+)","\n".join(lines),re.M)
                    th=[t for t in th if t not in done[:-1]]
                failed+=th
        first=""
        if errs:
            f,l=errs[0]; lines=open(f"{work}/theories/{f}.v").read().split("\n")[:int(l)]
            nm=re.findall(r"^\s*(?:Theorem|Corollary|Example|Lemma|Fact|Definition|Fixpoint)\s+(\w+)","\n".join(lines),re.M)
            first=f"{f}: {nm[-1] if nm else '?'}"
        rec=dict(definition=f"{m['file']}.{m['def']}",edit=f"{m['old']}  ==>  {m['new']}",claim=m["claim"],
                 first_failure=first,theorems_failed=failed,theorems_tightened=m.get("tightened",[]),note=m.get("note",""))
        print(json.dumps(rec)[:600],flush=True)
        if failed or m.get("logsurvive"):
            with open("/verif/seeded/LOG.jsonl","a") as g: g.write(json.dumps(rec)+"\n")
        else: print("SURVIVED",m["def"],flush=True)
    shutil.rmtree(work,ignore_errors=True)
main()

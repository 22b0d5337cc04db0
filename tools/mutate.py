# Seeds one bug at a time into a scratch copy of the model, rebuilds and logs what fails.
# usage: mutate.py BATCH.json   (list of {"file","def","old","new","claim"})
import json, os, re, subprocess, sys, shutil, datetime
SRC, DST = "/verif/rocq", "/tmp/mut/rocq"
LOG = "/verif/seeded/LOG.jsonl"
def sh(c, t=1800):
    try: return subprocess.run(c, shell=True, capture_output=True, text=True, timeout=t)
    except subprocess.TimeoutExpired: return None
BASE = "/tmp/mut/base"
def sync():
    os.makedirs("/tmp/mut", exist_ok=True)
    sh(f"rm -rf {BASE}; cp -a {SRC} {BASE}; cd {BASE} && coq_makefile -f _CoqProject -o Makefile && make -j2")
def fresh():
    sh(f"rm -rf {DST}; cp -a {BASE} {DST}")
def lemma_at(path, line):
    name = None
    for i, l in enumerate(open(path), 1):
        if i > line: break
        m = re.match(r"\s*(Lemma|Theorem|Example|Corollary|Fact|Definition|Fixpoint)\s+(\w+)", l)
        if m: name = m.group(2)
    return name
sync()
for m in json.load(open(sys.argv[1])):
    fresh()
    p = f"{DST}/theories/{m['file']}.v"
    s = open(p).read()
    if s.count(m["old"]) != 1:
        print("BAD PATTERN", m["file"], repr(m["old"]), s.count(m["old"])); continue
    open(p, "w").write(s.replace(m["old"], m["new"]))
    r = sh(f"cd {DST} && make -k -j2 COQC='timeout 400 coqc' 2>&1", 2400)
    out = r.stdout if r else "TIMEOUT"
    errs = []
    for mm in re.finditer(r'File "\./theories/(\w+)\.v", line (\d+), characters [^\n]*\nError', out):
        errs.append(f"{mm.group(1)}.{lemma_at(f'{DST}/theories/{mm.group(1)}.v', int(mm.group(2)))}")
    for mm in re.finditer(r'theories/(\w+)\.vo\] Error 124', out):
        errs.append(mm.group(1) + ' (proof search did not end)')
    rec = {"definition": m["def"], "edit": f"{m['old']!r} -> {m['new']!r}", "claim_broken": m["claim"],
           "theorems_failed": errs, "tightened": m.get("tightened", [])}
    print(json.dumps(rec), flush=True)
    if r is not None:
        open(LOG, "a").write(json.dumps(rec) + "\n")

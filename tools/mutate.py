"""Mutation-test the theorems: apply each edit of a batch to a scratch copy of rocq/, rebuild, log what failed.

usage: mutate.py BATCH.json      (list of {file, old, new, claim[, count]})
MUT_FAST=1 stops at the first failing file.  Only Model/ files are edited.  A mutant that still builds is a survivor.
"""
import json, os, re, subprocess, sys, shutil
HERE = os.path.dirname(os.path.abspath(__file__))
SRC = os.environ.get("MUT_SRC", os.path.join(HERE, "..", "rocq"))
DST = "/tmp/mut/rocq"
LOG = os.path.join(HERE, "..", "seeded", "LOG.jsonl")

def sync():
    os.makedirs(DST, exist_ok=True)
    subprocess.check_call(["cp", "-rpT", SRC, DST])

def enclosing(path, line):
    name = None
    for i, l in enumerate(open(path), 1):
        if i > line: break
        m = re.match(r"\s*(?:Local |Global )?(?:Theorem|Lemma|Example|Corollary|Definition|Fixpoint|Fact|Remark)\s+(\w+)", l)
        if m: name = m.group(1)
    return name

def defname(path, old):
    s = open(path).read(); k = s.index(old); name = None
    for m in re.finditer(r"^(?:Definition|Fixpoint|with|Inductive|Record)\s+(\w+)", s[:k+len(old)], re.M):
        name = m.group(1)
    return name

def main():
    batch = json.load(open(sys.argv[1]))
    subprocess.call("cd %s && make -j4 >/dev/null 2>&1" % SRC, shell=True)
    for mu in batch:
        shutil.rmtree("/tmp/mut", ignore_errors=True); sync()
        p = os.path.join(DST, "theories", mu["file"])
        s = open(p).read()
        assert s.count(mu["old"]) >= 1, ("not found", mu)
        assert s.count(mu["old"]) == 1 or mu.get("nth") is not None, ("ambiguous", mu, s.count(mu["old"]))
        d = defname(p, mu["old"])
        if mu.get("nth") is not None:
            parts = s.split(mu["old"]); n = mu["nth"]
            s2 = mu["old"].join(parts[:n+1]) + mu["new"] + mu["old"].join(parts[n+1:])
            pos = len(mu["old"].join(parts[:n+1]))
            d = [m.group(1) for m in re.finditer(r"^(?:Definition|Fixpoint|with)\s+(\w+)", s[:pos+1], re.M)][-1]
        else:
            s2 = s.replace(mu["old"], mu["new"])
        open(p, "w").write(s2)
        r = subprocess.run("cd %s && (coq_makefile -f _CoqProject -o Makefile >/dev/null; timeout 3000 make %s -j%s)" % (DST, "" if os.environ.get("MUT_FAST") else "-k", os.environ.get("MUT_J", "4")),
                           shell=True, capture_output=True, text=True)
        out = r.stdout + r.stderr
        failed = []
        for m in re.finditer(r'File "\./(theories/[\w/]+\.v)", line (\d+), characters [\d-]+:\s*\n\s*Error', out):
            failed.append(os.path.basename(m.group(1))[:-2] + "." + str(enclosing(os.path.join(DST, m.group(1)), int(m.group(2)))))
        rec = dict(definition=mu["file"][:-2].replace("/", ".") + "." + str(d), edit=mu["old"] + "  ==>  " + mu["new"],
                   claim=mu["claim"], failed=sorted(set(failed)), survived=(r.returncode == 0), tightened=mu.get("tightened", []))
        print(json.dumps(rec), flush=True)
        with open(LOG, "a") as f: f.write(json.dumps(rec) + "\n")

main()

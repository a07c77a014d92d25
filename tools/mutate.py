#!/usr/bin/env python3
"""Mutation tests: apply one edit to a scratch copy of the model, rebuild, log what failed.

usage: mutate.py batch.json [scratch-dir]
batch.json: list of {"file", "definition", "old", "new", "edit", "claim"}.
One JSON line per attempt is appended to /verif/seeded/LOG.jsonl.
"""
import json, os, re, shutil, subprocess, sys, time

SRC = "/verif/rocq"
LOG = "/verif/seeded/LOG.jsonl"
J = os.environ.get("J", "2")

def run(cmd, cwd, t=1800):
    p = subprocess.run(["timeout", str(t), "bash", "-c", "ulimit -v 7000000; " + cmd], cwd=cwd,
                       stdout=subprocess.PIPE, stderr=subprocess.STDOUT, text=True)
    return p.returncode, p.stdout

def enclosing(path, line):
    name = "?"
    for i, l in enumerate(open(path).read().split("\n")[:line], 1):
        m = re.match(r"\s*(?:#\[[^\]]*\]\s*)?(?:Local |Global )?(?:Theorem|Lemma|Corollary|Example|Definition|Fixpoint|Instance|Fact)\s+(\w+)", l)
        if m:
            name = m.group(1)
    return name

def main():
    batch = json.load(open(sys.argv[1]))
    scratch = sys.argv[2] if len(sys.argv) > 2 else "/tmp/mut/a"
    os.makedirs(scratch, exist_ok=True)
    run(f"rsync -a --delete {SRC}/ {scratch}/ 2>/dev/null || (rm -rf {scratch} && cp -a {SRC} {scratch})", "/tmp")
    rc, out = run(f"coq_makefile -f _CoqProject -o Makefile && make -j{J}", scratch, 3600)
    if rc != 0:
        print("baseline does not build"); print(out[-2000:]); sys.exit(1)
    for m in batch:
        f = os.path.join(scratch, "theories", m["file"])
        orig = open(f).read()
        n = orig.count(m["old"])
        if n != 1:
            print("SKIP", m["definition"], "pattern occurs", n, "times"); continue
        base = scratch + ".mut"
        shutil.rmtree(base, ignore_errors=True)
        subprocess.run(["cp", "-a", scratch, base], check=True)
        open(os.path.join(base, "theories", m["file"]), "w").write(orig.replace(m["old"], m["new"]))
        t0 = time.time()
        rc, out = run(f"make -k -j{J} TIMECMD='timeout 240'", base)
        fails = []
        for g in re.finditer(r'File "\./?(theories/(\w+)\.v)", line (\d+)[^\n]*\n(?:[^\n]*\n)?', out):
            seg = out[g.start():g.start() + 400]
            if "Error" not in seg.split("\nFile")[0]:
                continue
            nm = g.group(2) + "." + enclosing(os.path.join(base, g.group(1)), int(g.group(3)))
            if nm not in fails:
                fails.append(nm)
        for g in re.finditer(r"theories/(\w+)\.vo\] Error 124", out):
            fails.append(g.group(1) + " (no proof found in 240 s)")
        mods = [l.strip() for l in open(os.path.join(base, "_CoqProject")) if l.strip().endswith(".v")]
        skipped = []
        for v in mods:
            vo = os.path.join(base, v + "o")
            src_t = t0
            if not (os.path.exists(vo) and os.path.getmtime(vo) >= src_t):
                nm = os.path.basename(v)[:-2]
                if not any(x.startswith(nm + ".") for x in fails):
                    skipped.append(nm)
        rec = {"definition": m["file"][:-2] + "." + m["definition"], "edit": m["edit"], "claim": m["claim"],
               "failed": fails, "tightened": m.get("tightened", [])}
        if rc == 0:
            rec["survived"] = True
        elif not fails:
            rec["note"] = "build failed: " + out[-300:]
        with open(LOG, "a") as g:
            g.write(json.dumps(rec) + "\n")
        print(("SURVIVED " if rc == 0 else "killed   ") + rec["definition"] + " | " + m["edit"] + " | " + ", ".join(fails), f"{time.time()-t0:.0f}s", flush=True)
        shutil.rmtree(base, ignore_errors=True)
main()

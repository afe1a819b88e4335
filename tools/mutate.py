#!/usr/bin/env python3
"""Mutation testing of the theorems.

usage: mutate.py mutants.json [--log LOG.jsonl] [--only N]

Each mutant is {"file", "definition", "old", "new", "edit", "claim"}: `old` is
replaced by `new` in theories/`file` of a scratch copy.  Everything depending
on the file is recompiled.  Every lemma whose proof breaks is admitted (in the
scratch copy only) so that the remaining theorems are checked too; at the end
the theorems of Properties*.v that rest on an admitted lemma, or fail
themselves, are the ones that reject the mutant.
"""
import json, os, re, shutil, subprocess, sys, tempfile

ROOT = os.path.abspath(os.path.join(os.path.dirname(os.path.abspath(__file__)), ".."))
TIMEOUT = int(os.environ.get("MUT_TIMEOUT", "400"))

def sh(cmd, cwd, timeout=None):
    try:
        r = subprocess.run(cmd, cwd=cwd, stdout=subprocess.PIPE, stderr=subprocess.STDOUT, timeout=timeout, text=True)
        return r.returncode, r.stdout
    except subprocess.TimeoutExpired as e:
        out = e.stdout or b""
        return 124, out.decode(errors="replace") if isinstance(out, bytes) else out

def files(root):
    return [l.strip() for l in open(os.path.join(root, "_CoqProject")) if l.strip().endswith(".v")]

def deps(root, fs):
    _, out = sh(["coqdep", "-Q", "theories", "Verif"] + fs, root)
    d = {}
    for line in out.splitlines():
        m = re.match(r"(\S+)\.vo\b.*?: (.*)", line)
        if m:
            d[m.group(1) + ".v"] = [w[:-3] + ".v" for w in m.group(2).split() if w.endswith(".vo")]
    return d

START = re.compile(r"^(?:Local |Global )?(Lemma|Theorem|Example|Corollary|Fact|Remark)\s+([\w']+)", re.M)

def enclosing(src, pos):
    best = None
    for m in START.finditer(src):
        if m.start() <= pos:
            best = m
        else:
            break
    return best

def admit(path, pos):
    """admit the lemma around byte offset pos; returns its name or None"""
    src = open(path).read()
    # byte offset -> char offset
    p = len(src.encode()[:pos].decode(errors="ignore"))
    m = enclosing(src, p)
    if m is None:
        return None
    q = src.find("\nQed.", m.start())
    q2 = src.find(" Qed.", m.start())
    ends = [x for x in (q, q2) if x >= 0]
    e = min(ends) + 5
    pr = src.find("Proof.", m.start())
    if pr < 0 or pr > e:
        return None
    src = src[:pr] + "Admitted." + src[e:]
    open(path, "w").write(src)
    return m.group(2)

def compile_file(root, f):
    """compile f, admitting what breaks; returns (names admitted, output, fatal)"""
    names = []
    while True:
        rc, out = sh(["coqc", "-time", "-Q", "theories", "Verif", f], root, TIMEOUT)
        if rc == 0:
            return names, out, None
        if rc == 124:
            offs = [int(x) for x in re.findall(r"^Chars \d+ - (\d+)", out, re.M)]
            pos = (offs[-1] if offs else 0) + 2
            src = open(os.path.join(root, f)).read().encode()
            while pos < len(src) and src[pos:pos+1] in b" \n":
                pos += 1
        else:
            m = re.search(r'File "[^"]*", line (\d+), characters (\d+)-', out)
            if not m:
                return names, out, "no location"
            ln, ch = int(m.group(1)), int(m.group(2))
            lines = open(os.path.join(root, f), "rb").read().split(b"\n")
            pos = sum(len(x) + 1 for x in lines[:ln - 1]) + ch
        n = admit(os.path.join(root, f), pos)
        if n is None or n in names:
            return names, out, "cannot admit at " + (n or "?")
        names.append(n)

def run(mut, base):
    work = tempfile.mkdtemp(prefix="mut", dir="/tmp")
    root = os.path.join(work, "rocq")
    shutil.copytree(base, root, symlinks=True)
    try:
        path = os.path.join(root, "theories", mut["file"])
        src = open(path).read()
        if src.count(mut["old"]) < 1:
            return {"error": "old text not found"}
        k = mut.get("nth", 0)
        if src.count(mut["old"]) > 1 and "nth" not in mut:
            return {"error": "old text ambiguous (%d)" % src.count(mut["old"])}
        i = -1
        for _ in range(k + 1):
            i = src.find(mut["old"], i + 1)
        src = src[:i] + mut["new"] + src[i + len(mut["old"]):]
        open(path, "w").write(src)
        fs = files(root)
        d = deps(root, fs)
        dirty = {"theories/" + mut["file"]}
        order = []
        todo = list(fs)
        done = set()
        while todo:
            for f in todo:
                if all(x in done for x in d.get(f, []) if x in fs):
                    order.append(f); done.add(f); todo.remove(f); break
            else:
                return {"error": "cycle"}
        admitted, failed, fatal = {}, [], []
        for f in order:
            if f in dirty or any(x in dirty for x in d.get(f, [])):
                dirty.add(f)
                names, out, fat = compile_file(root, f)
                bn = os.path.basename(f)
                if fat:
                    fatal.append(bn + ": " + fat + " " + out[-300:])
                    return {"fatal": fatal, "admitted": admitted, "failed": failed}
                if names:
                    admitted[bn] = names
                if bn.startswith("Properties"):
                    failed += names
                    # theorems resting on an admitted lemma
                    allnames = {n for v in admitted.values() for n in v}
                    blocks = re.split(r"^Chars \d+ - \d+ \[Print~Assumptions~", out, flags=re.M)
                    ths = re.findall(r"Print Assumptions ([\w']+)\.", open(os.path.join(root, f)).read())
                    # output of Print Assumptions precedes its timing line; use a second pass
                    rc, out2 = sh(["coqc", "-Q", "theories", "Verif", f], root, TIMEOUT)
                    parts = re.split(r"^(?=Axioms:|Closed under the global context)", out2, flags=re.M)[1:]
                    for th, part in zip(ths, parts):
                        ax = set(re.findall(r"^([\w'.]+)\s*(?::|$)", part, re.M))
                        ax = {a.split(".")[-1] for a in ax}
                        if ax & allnames and th not in failed:
                            failed.append(th)
        return {"admitted": admitted, "failed": failed}
    finally:
        shutil.rmtree(work, ignore_errors=True)

def main():
    args = sys.argv[1:]
    muts = json.load(open(args[0]))
    log = args[args.index("--log") + 1] if "--log" in args else None
    if "--only" in args:
        sel = [int(x) for x in args[args.index("--only") + 1].split(",")]
    else:
        sel = range(len(muts))
    # pristine build in a scratch directory
    base = tempfile.mkdtemp(prefix="mutbase", dir="/tmp")
    root = os.path.join(base, "rocq")
    shutil.copytree(os.path.join(ROOT, "rocq"), root, symlinks=True)
    rc, out = sh("coq_makefile -f _CoqProject -o Makefile && make -j2".split(" ") if False else ["sh", "-c", "coq_makefile -f _CoqProject -o Makefile && make -j2"], root)
    if rc != 0:
        print(out[-2000:]); sys.exit(1)
    for i in sel:
        m = muts[i]
        r = run(m, root)
        print(i, m["definition"], "|", m["edit"], "->", json.dumps(r)[:600], flush=True)
        if log and "error" not in r:
            e = {"definition": m["file"] + ":" + m["definition"], "edit": m["edit"], "claim": m["claim"],
                 "failed": r.get("failed", []) if "fatal" not in r else r.get("failed", []) + ["(model or specification no longer compiles: %s)" % r["fatal"][0][:80]],
                 "tightened": m.get("tightened", [])}
            with open(log, "a") as f:
                f.write(json.dumps(e) + "\n")
    shutil.rmtree(base, ignore_errors=True)

main()

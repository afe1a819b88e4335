#!/usr/bin/env python3
"""Random small edits of the model definitions.

usage: automut.py OUT.jsonl WORKER NWORKERS PER_DEFINITION SEED [FILE ...]

For each definition of theories/Model*.v a few one-token edits (sign, operator,
constant, comparison, component, exception) are made in a scratch copy.  The
files that depend on it are recompiled, in order, until a proof fails on which a
property theorem (not an example) rests.  An edit for which everything still
compiles is a survivor: it has "failed": [].
"""
import json, os, random, re, shutil, subprocess, sys, tempfile, time

ROOT = os.path.abspath(os.path.join(os.path.dirname(os.path.abspath(__file__)), ".."))
START = re.compile(r"^(?:Local |Global )?(Lemma|Theorem|Example|Corollary|Fact|Remark|Definition|Fixpoint|Ltac|Inductive|Record|Notation)\s+([\w']+)", re.M)
WORD = re.compile(r"[\w']+")

def sh(cmd, cwd, timeout=None):
    try:
        r = subprocess.run(cmd, cwd=cwd, stdout=subprocess.PIPE, stderr=subprocess.STDOUT, timeout=timeout, text=True)
        return r.returncode, r.stdout
    except subprocess.TimeoutExpired as e:
        o = e.stdout or b""
        return 124, o.decode(errors="replace") if isinstance(o, bytes) else o

def files(root):
    return [l.strip() for l in open(os.path.join(root, "_CoqProject")) if l.strip().endswith(".v")]

def deps(root, fs):
    _, out = sh(["coqdep", "-Q", "theories", "Verif"] + fs, root)
    d = {}
    for line in out.splitlines():
        m = re.match(r"(\S+)\.vo\b.*?: (.*)", line)
        if m:
            d[m.group(1) + ".v"] = [w[:-3] + ".v" for w in m.group(2).split() if w.endswith(".vo")]
    return d

def strip_comments(s):
    out, depth, i = [], 0, 0
    while i < len(s):
        if s.startswith("(*", i): depth += 1; out.append("  "); i += 2; continue
        if s.startswith("*)", i) and depth: depth -= 1; out.append("  "); i += 2; continue
        out.append(s[i] if depth == 0 or s[i] == "\n" else " "); i += 1
    return "".join(out)

def items(src):
    ms = list(START.finditer(src))
    for m, n in zip(ms, ms[1:] + [None]):
        yield m.group(1), m.group(2), m.start(), (n.start() if n else len(src))

def users(root, fs):
    """name -> property theorems whose proof uses it, directly or not"""
    body = {}
    props = []
    for f in fs:
        src = strip_comments(open(os.path.join(root, f)).read())
        for kind, name, a, b in items(src):
            body.setdefault(name, set()).update(WORD.findall(src[a:b]))
            if os.path.basename(f).startswith("Properties") and kind == "Theorem":
                props.append(name)
    names = set(body)
    g = {n: (body[n] & names) - {n} for n in names}
    use = {n: set() for n in names}
    for p in props:
        seen, st = {p}, [p]
        while st:
            for y in g[st.pop()]:
                if y not in seen: seen.add(y); st.append(y)
        for y in seen: use[y].add(p)
    return use

SUB = [(r" \+ ", " - "), (r" - ", " + "), (r" \* ", " + "), (r" / ", " * "), (r"\bcos\b", "sin"), (r"\bsin\b", "cos"),
       (r"\bfst\b", "snd"), (r"\bsnd\b", "fst"), (r"\blA\b", "lB"), (r"\blB\b", "lA"), (r"\btA\b", "tB"), (r"\btB\b", "tC"), (r"\btC\b", "tA"),
       (r"\btrue\b", "false"), (r"\bfalse\b", "true"), (r"&&", "||"), (r"\|\|", "&&"), (r"\bnegb\b ", ""),
       (r"\bltb\b", "leb"), (r"\bleb\b", "ltb"), (r"\bltb\b", "(fun u v => ltb v u)"), (r"\bleb\b", "(fun u v => leb v u)"),
       (r"\beqb\b", "(fun u v => negb (eqb u v))"), (r"\batan2\b", "(fun u v => atan2 v u)"), (r"\bvadd\b", "vsub"), (r"\bvsub\b", "vadd"),
       (r"\bvsub\b", "(fun u v => vsub v u)"), (r"\bRmin\b", "Rmax"), (r"\bRmax\b", "Rmin"), (r"\bRabs\b", ""), (r"\bsqrt\b", ""), (r"\bea\b", "eb"), (r"\beb\b", "ea"),
       (r"\bValueError\b", "TypeError"), (r"\bTypeError\b", "ValueError"), (r"\bZeroDivisionError\b", "ValueError"), (r"\bAttributeError\b", "TypeError"),
       (r"\(- ", "("), (r"\bPI\b", "(2 * PI)"), (r"\bINone\b", "(IOne (0, 0))"), (r"\bOk None\b", "Raise ValueError"), (r"\bNone\b", "Some _"),
       (r"\bfadd\b", "fsub"), (r"\bfsub\b", "fadd"), (r"\bfmul\b", "fadd"), (r"\bfdiv\b", "fmul"), (r"\bdegrees\b", "(negb degrees)"), (r"\bCmul\b", "Cadd"), (r"\bCadd\b", "Csub"), (r"\bCsub\b", "Cadd"), (r"\bCconj\b", ""),
       (r"\brev\b", ""), (r"\btl\b", ""), (r"\bS ", ""), (r"c1\b", "c2"), (r"c2\b", "c1"), (r"\bA\b", "B"), (r"\bB\b", "A"), (r"\bB\b", "C"), (r"\bC\b", "B"), (r"\ba\b", "b"), (r"\bb\b", "a"), (r"\bc\b", "b"), (r"\bx\b", "y"), (r"\by\b", "x"),
       (r"\bcO\b", "snd (cO"), (r"allclose ", "(fun u v => allclose v u) "), (r"\bdet2x2_\b", "(fun u v => det2x2_ v u)"), (r"\bPt\b", "(fun _ => Inf)"), (r"\bInf\b", "(Pt (0, 0))")]

def numbers(m):
    return str(int(m.group(0)) + 1)

def mutants(root, wanted, per, rng):
    for f in sorted(os.listdir(os.path.join(root, "theories"))):
        if not (f.startswith("Model") and f.endswith(".v")) or (wanted and f not in wanted): continue
        src = open(os.path.join(root, "theories", f)).read()
        code = strip_comments(src)
        for kind, name, a, b in items(code):
            if kind not in ("Definition", "Fixpoint"): continue
            k = code.find(":=", a, b)
            if k < 0: continue
            cand = []
            for pat, new in SUB:
                for m in re.finditer(pat, code[k:b]):
                    cand.append((k + m.start(), k + m.end(), new))
            for m in re.finditer(r"(?<![\w'.])\d+(?![\w'.])", code[k:b]):
                cand.append((k + m.start(), k + m.end(), str(int(m.group(0)) + 1)))
            rng.shuffle(cand)
            yield f, name, src, cand, per

def main():
    out, w, nw, per, seed = sys.argv[1], int(sys.argv[2]), int(sys.argv[3]), int(sys.argv[4]), int(sys.argv[5])
    wanted = sys.argv[6:]
    rng = random.Random(seed)
    base = tempfile.mkdtemp(prefix="am", dir="/tmp")
    pristine = os.path.join(base, "p"); work = os.path.join(base, "w")
    shutil.copytree(os.path.join(ROOT, "rocq"), pristine, symlinks=True)
    fs = files(pristine); d = deps(pristine, fs); use = users(pristine, fs)
    order, done, todo = [], set(), list(fs)
    while todo:
        for f in todo:
            if all(x in done for x in d.get(f, []) if x in fs):
                order.append(f); done.add(f); todo.remove(f); break
    seen = set()
    if os.path.exists(out):
        for l in open(out):
            e = json.loads(l); seen.add((e["definition"], e["edit"]))
    idx = 0
    for f, name, src, cand, per in mutants(pristine, wanted, per, rng):
        idx += 1
        if idx % nw != w: continue
        n = 0
        for a, b, new in cand:
            if n >= per: break
            ls = src.rfind("\n", 0, a) + 1; le = src.find("\n", b)
            edit = "%s  =>  %s" % (src[ls:le].strip(), (src[ls:a] + new + src[b:le]).strip())
            if (f + ":" + name, edit) in seen: n += 1; continue
            shutil.rmtree(work, ignore_errors=True); shutil.copytree(pristine, work, symlinks=True)
            open(os.path.join(work, "theories", f), "w").write(src[:a] + new + src[b:])
            rc, o = sh(["coqc", "-Q", "theories", "Verif", "theories/" + f], work, 120)
            if rc: continue
            n += 1
            dirty = {"theories/" + f}; t0 = time.time(); failed = None; weak = []
            for g in order:
                if g in dirty or not any(x in dirty for x in d.get(g, [])): continue
                dirty.add(g)
                while True:
                    rc, o = sh(["coqc", "-time", "-Q", "theories", "Verif", g], work, 500)
                    if rc == 0: break
                    text = open(os.path.join(work, g)).read()
                    raw = text.encode()
                    if rc == 124:
                        offs = [int(x) for x in re.findall(r"^Chars \d+ - (\d+)", o, re.M)]
                        pos = (offs[-1] if offs else 0) + 2
                        while pos < len(raw) and raw[pos:pos+1] in b" \n": pos += 1
                    else:
                        m = re.search(r'File "[^"]*", line (\d+), characters (\d+)-', o)
                        lines = raw.split(b"\n")
                        pos = sum(len(x) + 1 for x in lines[:int(m.group(1)) - 1]) + int(m.group(2)) if m else 0
                    pos = len(raw[:pos].decode(errors="ignore"))
                    it = [x for x in items(text) if x[2] <= pos < x[3]]
                    nm = it[0][1] if it else None
                    us = sorted(use.get(nm, ())) if nm else []
                    if us or nm is None or it[0][0] in ("Definition", "Fixpoint", "Ltac"):
                        failed = us or ["(%s no longer compiles)" % os.path.basename(g)]; lemma = nm; break
                    # only examples rest on it: admit and go on
                    pr = text.find("Proof.", it[0][2], it[0][3])
                    ends = [x for x in (text.find("\nQed.", pr), text.find(" Qed.", pr)) if x >= 0]
                    if pr < 0 or not ends: failed = ["(%s no longer compiles)" % os.path.basename(g)]; lemma = nm; break
                    weak.append(nm)
                    open(os.path.join(work, g), "w").write(text[:pr] + "Admitted." + text[min(ends) + 5:])
                if failed is not None: break
            e = {"definition": f + ":" + name, "edit": edit, "claim": "the properties of " + name,
                 "failed": (failed or [])[:12], "tightened": []}
            if failed: e["lemma"] = lemma
            if weak: e["examples"] = weak
            e["seconds"] = int(time.time() - t0)
            with open(out, "a") as fo: fo.write(json.dumps(e) + "\n")
    shutil.rmtree(base, ignore_errors=True)

main()

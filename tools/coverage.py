#!/usr/bin/env python3
"""Which functions of /repo/planegeometry have lines cited in rocq/theories/Model*.v (and Base.v)."""
import ast, glob, os, re
root = os.path.dirname(os.path.dirname(os.path.abspath(__file__)))
cited = {"geometry.py": set(), "internal.py": set()}
for f in glob.glob(os.path.join(root, "rocq/theories/Model*.v")) + [os.path.join(root, "rocq/theories/Base.v")]:
    for m in re.finditer(r"(geometry|internal)\.py:((?:\d+(?:-\d+)?(?:, ?)?)+)", open(f).read()):
        for r in re.findall(r"(\d+)(?:-(\d+))?", m.group(2)):
            a = int(r[0]); b = int(r[1] or a)
            if b - a > 100: continue
            cited[m.group(1) + ".py"].update(range(a, b + 1))
for name in cited:
    src = open("/repo/planegeometry/" + name).read()
    def walk(node, pre):
        for n in node.body:
            if isinstance(n, ast.ClassDef): walk(n, n.name + ".")
            elif isinstance(n, ast.FunctionDef):
                body = set(range(n.body[0].lineno, n.end_lineno + 1))
                c = len(body & cited[name])
                if c == 0: print("NOT CITED", name, pre + n.name, n.lineno, n.end_lineno)
    walk(ast.parse(src), "")

#!/usr/bin/env python3
"""Write ASSUMPTIONS.md: what Print Assumptions lists for every property theorem (run after a build)."""
import glob, os, re, subprocess, tempfile
from concurrent.futures import ThreadPoolExecutor
root = os.path.dirname(os.path.dirname(os.path.abspath(__file__)))

def query(f):
    m = os.path.basename(f)[:-2]
    names = re.findall(r"^\s*(?:Theorem|Corollary)\s+(C\d+_\w+)", open(f).read(), re.M)
    src = f"From Verif Require {m}.\n" + "".join(
        f'Goal True. idtac "@@{x}". Abort.\nPrint Assumptions {m}.{x}.\n' for x in names)
    with tempfile.TemporaryDirectory() as d:
        p = os.path.join(d, "a.v"); open(p, "w").write(src)
        out = subprocess.run(["coqc", "-Q", os.path.join(root, "rocq/theories"), "Verif", p],
                             stdout=subprocess.PIPE, stderr=subprocess.STDOUT, text=True).stdout
    parts = out.split("@@")[1:]
    assert len(parts) == len(names), (m, out[-500:])
    return parts

groups, n = {}, 0
with ThreadPoolExecutor(2) as ex:
    for parts in ex.map(query, sorted(glob.glob(os.path.join(root, "rocq/theories/Props*.v")))):
        for part in parts:
            name, rest = part.split("\n", 1)
            ax = tuple(sorted(re.findall(r"^([\w.]+)(?: :|$)", rest, re.M))) if "Axioms:" in rest else ()
            ax = tuple(a for a in ax if a != "Axioms")
            groups.setdefault(ax, []).append(name); n += 1
with open(os.path.join(root, "ASSUMPTIONS.md"), "w") as o:
    o.write(f"# Print Assumptions of the {n} property theorems\n\nGenerated by `tools/assumptions.py`.\n")
    for ax, ths in sorted(groups.items(), key=lambda t: len(t[0])):
        o.write("\n## " + (", ".join(f"`{a}`" for a in ax) or "Closed under the global context (no axioms)") + f" ({len(ths)})\n\n")
        o.write(", ".join(sorted(ths)) + "\n")
print(n, {k: len(v) for k, v in groups.items()})

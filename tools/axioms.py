"""Turn the output of Print Assumptions into one line per theorem: name, then the axiom names."""
import re, sys
cur = None
res = {}
for line in open(sys.argv[1]):
    if line.startswith("@@ "):
        cur = line[3:].strip()
        res[cur] = []
    elif cur:
        m = re.match(r"^([A-Za-z_][\w.']*)\s*(:|$)", line)
        if m and m.group(1) not in ("Axioms", "Closed", "Section", "Theorems", "Module"):
            res[cur].append(m.group(1).split(".")[-1])
for n in sorted(res):
    print(n, " ".join(sorted(set(res[n]))) or "closed")

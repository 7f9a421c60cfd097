"""Rewrite sections 4 and 5 of DESIGN.md from how.json, MANIFEST.json, notes.json and axioms.txt."""
import json, os, re
root = os.path.join(os.path.dirname(os.path.abspath(__file__)), "..")
rd = lambda *p: open(os.path.join(root, *p)).read()
how = json.loads(rd("tools", "how.json"))
claims = json.loads(rd("MANIFEST.json"))["claims"]
titles = {}
for l in rd("properties.jsonl").splitlines():
    if l.strip():
        p = json.loads(l)
        titles[p["id"]] = p["title"]
head = rd("DESIGN.md").split("## 4. ")[0]
out = [head.rstrip(), "", "## 4. Per property", "",
       "Status `partial` covers both incomplete proofs and properties that are false of the code; the latter have a",
       "`_refuted` theorem with a witness and the note starts with REFUTED.", "",
       "| id | title | status | what is modelled | how it is proved | remarks |", "|---|---|---|---|---|---|"]
esc = lambda s: s.replace("|", "\\|").replace("\n", " ")
for c in claims:
    a, b = how.get(c["property"], ("", ""))
    out.append("| " + " | ".join(esc(x) for x in (c["property"], titles[c["property"]], c["status"], a, b, c["note"])) + " |")
out += ["", "## 5. Axioms per theorem", "",
        "Taken from `Print Assumptions` (`tools/axioms.sh` rewrites `tools/axioms.txt`). All axioms belong to the Coq standard",
        "library: `sig_forall_dec`, `sig_not_dec` (ClassicalDedekindReals), `functional_extensionality_dep`", 
        "(FunctionalExtensionality) and `classic` (Classical_Prop). No axiom of another library is used: mathcomp (DetMC.v) and",
        "Coquelicot only contribute proved lemmas.", ""]
groups = {}
for l in rd("tools", "axioms.txt").splitlines():
    n, *ax = l.split()
    groups.setdefault(" ".join(ax), []).append(n)
for ax in sorted(groups, key=lambda a: (a != "closed", a)):
    t = "Closed under the global context" if ax == "closed" else ", ".join("`%s`" % x for x in ax.split())
    out += ["* " + t + " (%d): " % len(groups[ax]) + ", ".join(sorted(groups[ax])) + ".", ""]
open(os.path.join(root, "DESIGN.md"), "w").write("\n".join(out).rstrip() + "\n")

#!/usr/bin/env python3
"""Generate rocq/theories/Properties_X.v from rocq/theories/Proofs_X.v.

Every `Lemma NAME_proof : STATEMENT.` (statement ended by a line `Proof.`) of the
proofs file is restated as `Theorem NAME` (`Example NAME` if NAME ends in `_ex` or has `_ex_`),
closed by `exact NAME_proof`, with the comment that precedes it and a
`Print Assumptions` for theorems."""
import re, sys, glob, os
d = os.path.join(os.path.dirname(os.path.abspath(__file__)), "..", "rocq", "theories")
for f in sorted(glob.glob(os.path.join(d, "Proofs_*.v"))):
    s = open(f).read()
    base = os.path.basename(f)[:-2]
    x = base[len("Proofs_"):]
    head = re.search(r"(From Coq(?:.|\n)*?Import ListNotations\.\n(?:Local Open Scope \w+\.\n)+)", s).group(1)
    head = head.replace("From Verif Require Import", "From Verif Require Import " + base, 1)
    out = ["(** * Property theorems (generated from %s.v by tools/genprops.py; statements only) *)\n" % base, head, ""]
    pat = re.compile(r"(\(\*\*(?:(?!\*\)).|\n)*?\*\)\n)?Lemma (\w+)_proof :(.*?)\nProof\.", re.S)
    for m in pat.finditer(s):
        com, name, st = m.group(1) or "", m.group(2), m.group(3)
        kw = "Example" if re.search(r"_ex(_|\d|$)", name) else "Theorem"
        out.append(com + kw + " " + name + " :" + st + "\nProof. exact " + name + "_proof. Qed.")
        if kw == "Theorem":
            out.append("Print Assumptions " + name + ".")
        out.append("")
    open(os.path.join(d, "Properties_" + x + ".v"), "w").write("\n".join(out))

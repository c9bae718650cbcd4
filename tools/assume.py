#!/usr/bin/env python3
"""Regenerate rocq/theories/Assumptions.v: one Print Assumptions over all property theorems."""
import os, re
root = os.path.dirname(os.path.dirname(os.path.abspath(__file__)))
proj = open(root + "/rocq/_CoqProject").read()
files = [f for f in re.findall(r"theories/(Prop\w+)\.v", proj)]
out = ["(** Generated by tools/assume.py.  One tuple per property file holds all its theorems;",
       "    Print Assumptions of a tuple covers each of its components, so \"Closed under the",
       "    global context\" for the tuple says so for every theorem in it. *)",
       "From Verif Require Import " + " ".join(files) + "."]
for f in files:
    names = re.findall(r"^Theorem (C\d\d_\w+)", open(f"{root}/rocq/theories/{f}.v").read(), re.M)
    out.append(f"Definition all_{f} := (")
    out.append(",\n".join("  " + f + "." + n for n in names) + ").")
out.append("Definition all_theorems := (" + ", ".join("all_" + f for f in files) + ").")
out.append("Print Assumptions all_theorems.")
open(root + "/rocq/theories/Assumptions.v", "w").write("\n".join(out) + "\n")

#!/bin/sh
# Print the assumptions of every property theorem (needs a finished build).
cd "$(dirname "$0")/../rocq/theories" || exit 1
for f in P_*.v; do
  echo "== $f: $(grep -c '^Print Assumptions' "$f") theorems"
  coqc -Q . Verif "$f" 2>/dev/null | sort | uniq -c
done

#!/bin/sh
# usage: design.sh BUILT_ROCQ_DIR : refresh the axiom table at the end of DESIGN.md
mkdir -p /tmp/pa
python3 /verif/tools/assumptions.py "$1" > /tmp/pa/table.md || exit 1
sed -i '/^## Theorems and their axioms/,$d' /verif/DESIGN.md
printf '## Theorems and their axioms (output of Print Assumptions)\n\n' >> /verif/DESIGN.md
cat /tmp/pa/table.md >> /verif/DESIGN.md

#!/bin/sh
# usage: tools/mile.sh "message" area...   append X,XSpec,XProofs,XProps (existing) to _CoqProject, manifest, commit, vcheck
cd /verif
msg="$1"; shift
for a in "$@"; do for s in "" Spec Proofs Props; do f="theories/$a$s.v"; if [ -f "rocq/$f" ] && ! grep -q "^$f\$" rocq/_CoqProject; then echo "$f" >> rocq/_CoqProject; fi; done; done
python3 tools/manifest.py && git add -A && git commit -qm "$msg" && vcheck | grep -o "\"manifest_status.*"

#!/bin/sh
# Regenerates the file list in _CoqProject and builds.
cd /verif/rocq || exit 1
{ echo "-Q theories Verif"; ls theories/*.v; } > _CoqProject
coq_makefile -f _CoqProject -o Makefile >/dev/null && timeout ${T:-800} make -j4 2>&1 | grep -v "^COQDEP\|^Closed under\|^CLEAN" | tail -${N:-40}

#!/bin/bash
# quiet build: only errors; 10 minute limit
cd /verif/rocq && coq_makefile -f _CoqProject -o Makefile >/dev/null && (timeout 600 make -j${1:-3} 2>&1; echo "rc $?") | grep -B2 -A18 "^Error\|rc [1-9]" | head -${2:-60}

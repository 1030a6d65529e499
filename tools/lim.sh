#!/bin/bash
# lim.sh file : coqc with memory/time limit
ulimit -v 6000000
timeout ${2:-300} coqc -Q theories Verif $1 2>&1
echo "rc $?"

#!/bin/bash
# run mutation files one after the other
for m in "$@"; do nice python3 /verif/tools/mutate.py /verif/seeded/muts/$m.py > /tmp/$m.log 2>&1; done

#!/bin/bash
# goal.sh File.v LINE : compile the first LINE lines and show the goal there
head -n $2 theories/$1 > /tmp/goal_t.v; echo 'Show.' >> /tmp/goal_t.v
timeout ${3:-300} coqc -Q theories Verif /tmp/goal_t.v 2>&1 | tail -${4:-50}

#!/bin/bash
# usage: goal.sh File.v LINE  -- show goals just before LINE
cd /verif/rocq
head -n $(($2-1)) theories/$1 > /tmp/goal_tmp.v
(cat /tmp/goal_tmp.v; echo "Show."; ) | timeout 300 coqtop -Q theories Verif -q 2>&1 | tail -${3:-60}

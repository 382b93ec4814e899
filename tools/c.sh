#!/bin/bash
# compile one file, show first error
cd /verif/rocq; ulimit -v 8000000; (timeout ${2:-300} coqc -Q theories Verif theories/$1.v 2>&1; echo rc $?) | head -${3:-30}

#!/bin/sh
# Regenerate _CoqProject's file list from theories/ and build.
cd "$(dirname "$0")"
{ echo "-Q theories Verif"; find theories -name '*.v' | sort; } > _CoqProject
coq_makefile -f _CoqProject -o Makefile && exec timeout "${T:-300}" make -j4 "$@"

#!/bin/sh
# regenerate the file list of rocq/_CoqProject
cd "$(dirname "$0")/../rocq"
{ echo "-Q theories Verif"; find theories -name '*.v' | LC_ALL=C sort; } > _CoqProject
